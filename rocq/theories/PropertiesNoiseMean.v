(** C68: the samples of simulate_noise are independent, and their averages are those of the circuit's channel. *)
From Verif Require Import NoiseMeanProofs3 NoiseMeanProofs4 NoiseMeanProofs5.
From Verif Require Import NoiseMeanSpec.
Local Open Scope nat_scope.

(** The states returned, each taken as often as its multiplicity, are distributed like those of [count] independent
    samples: any quantity of such a collection has the same expected value for both. *)
Theorem C68_independent n L ps c p gs psi count H : sizes_ok n (N.of_nat count) L -> 0 < count -> circuit_is c p -> Forall can_simulate (c_gates c) ->
  Forall (fun ic => snd ic = None) p -> Forall (fun q => (q < n)%N) (program_operands p) -> instantiate ps p = Some gs -> of_collections n H ->
  noise_expects n L ps c psi count (fun result => H (listed result))
    (independently count (expectation (map chances (map fst gs))) (fun paths => H (map (ended (map fst gs) psi) paths))).
Proof. intros H1 H2 H3 H4 _ H5 H6. exact (noise_independent n L ps c p gs psi count H1 H2 H3 H4 H5 H6 H). Qed.
Print Assumptions C68_independent.
(** Sample means are unbiased: whatever is measured on the states, linear or not. *)
Theorem C68_mean n L ps c p gs psi count Q : sizes_ok n (N.of_nat count) L -> 0 < count -> circuit_is c p -> Forall can_simulate (c_gates c) ->
  Forall (fun ic => snd ic = None) p -> Forall (fun q => (q < n)%N) (program_operands p) -> instantiate ps p = Some gs -> of_states n Q ->
  noise_expects n L ps c psi count (tally Q) (Cscale (INR count) (one_sample (map fst gs) psi Q)).
Proof. intros H1 H2 H3 H4 _ H5 H6. exact (noise_mean n L ps c p gs psi count H1 H2 H3 H4 H5 H6 Q). Qed.
Print Assumptions C68_mean.
(** The variance is that of independent samples: the second moment of a sum. *)
Theorem C68_second_moment n L ps c p gs psi count Q Q' : sizes_ok n (N.of_nat count) L -> 0 < count -> circuit_is c p -> Forall can_simulate (c_gates c) ->
  Forall (fun ic => snd ic = None) p -> Forall (fun q => (q < n)%N) (program_operands p) -> instantiate ps p = Some gs -> of_states n Q -> of_states n Q' ->
  noise_expects n L ps c psi count (fun result => tally Q result * tally Q' result)%C
    (Cscale (INR count) (one_sample (map fst gs) psi (fun phi => Q phi * Q' phi)%C) +
     Cscale (INR count * (INR count - 1)) (one_sample (map fst gs) psi Q * one_sample (map fst gs) psi Q'))%C.
Proof. intros H1 H2 H3 H4 _ H5 H6. exact (noise_product n L ps c p gs psi count H1 H2 H3 H4 H5 H6 Q Q'). Qed.
Print Assumptions C68_second_moment.
(** The average of the density matrices is what the channel of the circuit gives. *)
Theorem C68_channel n L ps c p gs psi count i j : sizes_ok n (N.of_nat count) L -> 0 < count -> circuit_is c p -> Forall can_simulate (c_gates c) ->
  Forall (fun ic => snd ic = None) p -> Forall (fun q => (q < n)%N) (program_operands p) -> instantiate ps p = Some gs -> (i < 2 ^ n)%N -> (j < 2 ^ n)%N ->
  noise_expects n L ps c psi count (tally (fun phi => phi i * Cconj (phi j))%C)
    (Cscale (INR count) (channels (map (fun g => (normalised (fst g), None)) gs) (pure psi []) [] i j)).
Proof. intros H1 H2 H3 H4 _ H5 H6. exact (noise_channel n L ps c p gs psi count H1 H2 H3 H4 H5 H6 i j). Qed.
Print Assumptions C68_channel.
(** It is also the average over the runs of the circuit, if the probabilities of every probabilistic gate add up to 1. *)
Theorem C68_agrees n L ps c p gs psi count i j : sizes_ok n (N.of_nat count) L -> 0 < count -> circuit_is c p -> Forall can_simulate (c_gates c) ->
  Forall (fun ic => snd ic = None) p -> Forall (fun q => (q < n)%N) (program_operands p) -> instantiate ps p = Some gs -> norm_kept n ps p -> sqnorm n psi = 1%R ->
  (forall l cc, In (Choice l, cc) gs -> Rsuml fst l = 1%R) -> (i < 2 ^ n)%N -> (j < 2 ^ n)%N ->
  exists v, averaged (draws_list gs) (run_gives n (circuit_update n L ps c) psi [] (fun w => w_amp w i * Cconj (w_amp w j))%C) v /\
            noise_expects n L ps c psi count (tally (fun phi => phi i * Cconj (phi j))%C) (Cscale (INR count) v).
Proof. exact (noise_agrees n L ps c p gs psi count i j). Qed.
Print Assumptions C68_agrees.
(** There is only one expected value. *)
Theorem C68_unique n L ps c psi count f v v' : noise_expects n L ps c psi count f v -> noise_expects n L ps c psi count f v' -> v = v'.
Proof. exact (expects_unique n L ps c psi count f v v'). Qed.
Print Assumptions C68_unique.
(** Bit-flip noise of probability p on |0>: count * p of the samples are expected to be flipped. *)
Theorem C68_bit_flip L vf p g count : lanes_ok L -> 0 < count -> (N.of_nat count * 2 <= 2 ^ 64)%N -> (0 <= p <= 1)%R -> make_bit_flip vf 0 p = Ok g ->
  noise_expects 1 L (fun _ => None) (add_gate c_new g) CircuitProofs10.ex_zero count (tally (fun phi => phi 1%N * Cconj (phi 1%N))%C) ((INR count * p)%R, 0%R).
Proof. exact (flips_mean L vf p g count). Qed.
Print Assumptions C68_bit_flip.
Example C68_example : sizes_ok 2 (N.of_nat 1000) 8 /\ circuit_is NoiseProofs6.ex_noise NoiseProofs6.ex_noise_program /\
  Forall can_simulate (c_gates NoiseProofs6.ex_noise) /\ Forall (fun ic => snd ic = None) NoiseProofs6.ex_noise_program /\
  Forall (fun q => (q < 2)%N) (program_operands NoiseProofs6.ex_noise_program) /\
  exists gs, instantiate (fun _ => Some 1%R) NoiseProofs6.ex_noise_program = Some gs /\ map fst gs = NoiseProofs6.ex_noise_gates 1.
Proof. destruct NoiseProofs6.noise_example as (H1 & H2 & H3 & H4 & H5 & H6 & _). exact (conj H1 (conj H2 (conj H3 (conj H4 (conj H5 H6))))). Qed.
