(** Circuit::simulate_noise: C46. *)
From Verif Require Import NoiseSpec.
From Verif Require NoiseProofs5 NoiseProofs6 NoiseProofs7.
Local Open Scope nat_scope.

(** C46: simulate_noise(count) returns states whose multiplicities add up to [count].  Each is the result of one
    way through the circuit, no way is listed twice, and its multiplicity is the number of the [count] samples that
    took it; at every gate the [count] draws are handed out to the samples, one each.  The whole statement is false
    for conditional gates and for inverted probabilistic gates, see below; measurements inside a probabilistic gate
    are rejected by its factory (C32).  Missing: probabilistic gates with inverted probabilistic gates among their
    alternatives. *)
Theorem C46_noise_simulation_partial : forall n L ps c p gs psi count draws w, sizes_ok n (N.of_nat count) L -> 0 < count ->
  circuit_is c p -> Forall can_simulate (c_gates c) -> Forall (fun ic => snd ic = None) p ->
  Forall (fun q => (q < n)%N) (program_operands p) -> instantiate ps p = Some gs -> draws_fit (map fst gs) count draws ->
  runs (simulate_noise n L ps c psi count draws) w
    (done (fun result _ => exists samples paths, noise_result n (map fst gs) psi count draws samples paths result)).
Proof. intros n L ps c p gs psi count draws w Hs H0 Hc Hcan _. exact (NoiseProofs5.noise_spec n L ps c p gs psi count draws w Hs H0 Hc Hcan). Qed.
Print Assumptions C46_noise_simulation_partial.
(** H(0), a probabilistic gate {1/4: H(0), 3/4: I} and RX(1) by theta, 1000 samples *)
Example C46_example : sizes_ok 2 (N.of_nat 1000) 8 /\ circuit_is NoiseProofs6.ex_noise NoiseProofs6.ex_noise_program /\
  Forall can_simulate (c_gates NoiseProofs6.ex_noise) /\ Forall (fun ic => snd ic = None) NoiseProofs6.ex_noise_program /\
  Forall (fun q => (q < 2)%N) (program_operands NoiseProofs6.ex_noise_program) /\
  (exists gs, instantiate (fun _ => Some 1%R) NoiseProofs6.ex_noise_program = Some gs /\ map fst gs = NoiseProofs6.ex_noise_gates 1) /\
  draws_fit (NoiseProofs6.ex_noise_gates 1) 1000 (fun k => if Nat.eqb (k / 1000) 1 then k mod 2 else 0).
Proof. exact NoiseProofs6.noise_example. Qed.

(** Too few qubits and measurements are rejected. *)
Theorem C46_rejects : forall n L ps c psi count draws w,
  (n < required_n_qubits c)%N \/ (exists t bit reset, In (IGate (CMeas t bit reset)) (c_gates c)) ->
  forall r w', ~ simulate_noise n L ps c psi count draws w (HDone r w').
Proof. exact NoiseProofs6.noise_rejects. Qed.
Print Assumptions C46_rejects.
Example C46_rejects_example : exists t bit reset, In (IGate (CMeas t bit reset)) (c_gates (add_gate c_new (CMeas 1 0 true))).
Proof. exists 1%N, 0%N, true. left. reflexivity. Qed.

(** Conditions are ignored: there is a circuit that leaves its state alone on every run, and simulate_noise
    returns another state for it. *)
Theorem C46_conditions_refuted : exists n L ps c p gs psi, sizes_ok n 1 L /\ circuit_is c p /\ Forall can_simulate (c_gates c) /\
  Forall (fun q => (q < n)%N) (program_operands p) /\ instantiate ps p = Some gs /\
  (forall us r o, run_program watch_all n ps p us (SState psi r) o -> o = SDone (SState psi r)) /\
  forall w, runs (simulate_noise n L ps c psi 1 (fun _ => 0)) w
    (done (fun result _ => exists phi, result = [(phi, 1)] /\ phi 0%N <> psi 0%N)).
Proof. exact NoiseProofs6.noise_conditions. Qed.
Print Assumptions C46_conditions_refuted.

(** Without samples nothing is returned, except that the empty circuit returns its input with multiplicity 0. *)
Theorem C46_no_samples : forall n L ps c p gs psi draws w, sizes_ok n 1 L ->
  circuit_is c p -> Forall can_simulate (c_gates c) -> Forall (fun q => (q < n)%N) (program_operands p) -> instantiate ps p = Some gs ->
  runs (simulate_noise n L ps c psi 0 draws) w
    (done (fun result _ => match gs with [] => exists phi, result = [(phi, 0)] /\ forall x, (x < 2 ^ n)%N -> phi x = psi x | _ => result = [] end)).
Proof. exact NoiseProofs7.noise_none. Qed.
Print Assumptions C46_no_samples.
Example C46_no_samples_example : sizes_ok 2 1 8 /\ circuit_is NoiseProofs6.ex_noise NoiseProofs6.ex_noise_program /\
  Forall can_simulate (c_gates NoiseProofs6.ex_noise) /\ Forall (fun q => (q < 2)%N) (program_operands NoiseProofs6.ex_noise_program).
Proof.
  destruct NoiseProofs6.noise_example as (H & H1 & H2 & _ & H3 & _). refine (conj _ (conj H1 (conj H2 H3))). destruct H as (Ha & _ & Hb).
  refine (conj Ha (conj _ Hb)). vm_compute. discriminate.
Qed.

(** The inverse of a circuit, whatever its gates, always yields a single state with all the samples: its gates have
    lost their type, and a probabilistic gate among them is resolved once for all samples. *)
Theorem C46_inverse_one_state : forall n L ps c0 c psi count draws w result w', circuit_inverse c0 = Ok c -> 0 < count ->
  simulate_noise n L ps c psi count draws w (HDone result w') -> exists phi, result = [(phi, count)].
Proof. exact NoiseProofs7.noise_inverse_one. Qed.
Print Assumptions C46_inverse_one_state.
(** So samples are not drawn independently.  For the inverse of bit-flip noise of probability 1/2 no result is
    right for any draws that differ. *)
Theorem C46_inverse_refuted : exists n L ps g c p gs psi, make_bit_flip false 0 (1 / 2) = Ok g /\ circuit_inverse (add_gate c_new g) = Ok c /\
  circuit_is c p /\ Forall (fun ic => snd ic = None) p /\ Forall (fun q => (q < n)%N) (program_operands p) /\ instantiate ps p = Some gs /\
  map (fun g => ways (fst g)) gs = [2] /\
  forall count w, 1 < count -> sizes_ok n (N.of_nat count) L -> (forall k, unit_draw (bw_rand w k)) ->
    runs (simulate_noise n L ps c psi count (fun _ => 0)) w
      (done (fun result _ => forall draws i j samples paths, i < count -> j < count -> draws i <> draws j ->
               ~ noise_result n (map fst gs) psi count draws samples paths result)).
Proof. exact NoiseProofs7.noise_inverse_refuted. Qed.
Print Assumptions C46_inverse_refuted.
