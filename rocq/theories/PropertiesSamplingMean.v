(** C69: samples are independent and follow the Born rule. *)
From Verif Require Import SamplingMeanProofs2.
From Verif Require Import SamplingMeanSpec.

(** A normalised state: count numbers give count independent samples, x with probability |psi x|^2.  F is anything
    computed from the list of samples. *)
Theorem C69_independent n psi count F : sqnorm n psi = 1%R ->
  averaged (N.to_nat count) (fun us v => forall rest, exists l, sampling n psi count ((fun i => nth (N.to_nat i) us 0%R) :: rest) = Some l /\ F l = v)
    (independently (N.to_nat count) (one_outcome n (fun x => Cnorm2 (psi x))) F).
Proof. exact (sampling_born n psi count F). Qed.
Print Assumptions C69_independent.
(** In particular x is expected count * |psi x|^2 times. *)
Theorem C69_frequency n psi count x : sqnorm n psi = 1%R -> x < 2 ^ n ->
  averaged (N.to_nat count) (fun us v => forall rest, exists l, sampling n psi count ((fun i => nth (N.to_nat i) us 0%R) :: rest) = Some l /\ frequency x l = v)
    (RtoC (INR (N.to_nat count) * Cnorm2 (psi x))).
Proof. exact (sampling_frequency n psi count x). Qed.
Print Assumptions C69_frequency.
(** Norm at most 1: samples that find no basis state are drawn again, at most m times here.  Whether sampling has
    returned by then does not depend on what it returns, and what it returns is distributed with |psi x|^2 divided
    by the squared norm. *)
Theorem C69_rejection n psi count m F : (0 < sqnorm n psi <= 1)%R ->
  averaged (m * N.to_nat count) (fun us v => v = if_done F (sampling n psi count (rounds_of m (N.to_nat count) us)))
    (Cscale ((1 - (1 - sqnorm n psi) ^ m) ^ N.to_nat count) (independently (N.to_nat count) (one_outcome n (fun x => Cnorm2 (psi x) / sqnorm n psi)%R) F)).
Proof. exact (sampling_mean n psi count m F). Qed.
Print Assumptions C69_rejection.
(** Sampling returns with probability 1. *)
Theorem C69_returns n psi count : (0 < sqnorm n psi <= 1)%R -> Un_cv (fun m => (1 - (1 - sqnorm n psi) ^ m) ^ count)%R 1.
Proof. exact (ends_surely n psi count). Qed.
Print Assumptions C69_returns.
(** Batches: the elements' samples are independent of each other too, although they share the rounds. *)
Theorem C69_batched B n psi count m F : (forall b, b < B -> (0 < sqnorm n (batch n b psi) <= 1)%R) ->
  averaged (m * N.to_nat (B * count)) (fun us v => v = if_done F (b_sampling B n psi count (rounds_of m (N.to_nat (B * count)) us)))
    (Cscale (all_ended n B psi count m)
       (jointly (map (fun b => independently (N.to_nat count) (one_outcome n (fun x => Cnorm2 (batch n b psi x) / sqnorm n (batch n b psi))%R)) (seqN B)) F)).
Proof. exact (b_sampling_mean B n psi count m F). Qed.
Print Assumptions C69_batched.
Theorem C69_batched_returns B n psi count : (forall b, b < B -> (0 < sqnorm n (batch n b psi) <= 1)%R) -> Un_cv (all_ended n B psi count) 1.
Proof. exact (b_ends_surely B n psi count). Qed.
Print Assumptions C69_batched_returns.
(** Density matrices: the diagonal. *)
Theorem C69_density n w count m F : d_herm w = true -> (forall x, x < 2 ^ n -> (0 <= fst (rho w x x))%R) -> (0 < diag_prob n (fun _ => true) (rho w) <= 1)%R ->
  averaged (m * N.to_nat count) (fun us v => exists o, dm_sampling n w count (rounds_of m (N.to_nat count) us) = Ok o /\ v = if_done F o)
    (Cscale ((1 - (1 - diag_prob n (fun _ => true) (rho w)) ^ m) ^ N.to_nat count)
       (independently (N.to_nat count) (one_outcome n (fun x => fst (rho w x x) / diag_prob n (fun _ => true) (rho w))%R) F)).
Proof. exact (dm_sampling_mean n w count m F). Qed.
Print Assumptions C69_density.
(** One sample at the end of every run of a circuit: x comes up with entry (x, x) of the channel's density matrix. *)
Theorem C69_shots n L ps c p l psi r0 F : n < 64 -> lanes_ok L -> circuit_is c p -> norm_kept n ps p -> sqnorm n psi = 1%R -> never_stops n ps p psi r0 ->
  instantiate ps p = Some l ->
  averaged (draws_list l) (run_gives n (circuit_update n L ps c) psi r0 (fun w => one_outcome n (fun x => Cnorm2 (w_amp w x)) F))
    (Csuml (fun x => F x * Csuml (fun r => channels l (ChannelSpec.pure psi r0) r x x) (registers (length r0)))%C (seqN (2 ^ n))).
Proof. exact (shots n L ps c p l psi r0 F). Qed.
Print Assumptions C69_shots.
(** There is only one such average. *)
Theorem C69_unique k (f : list R -> C) v v' : averaged k (fun us v => v = f us) v -> averaged k (fun us v => v = f us) v' -> v = v'.
Proof. exact (sampling_unique k f v v'). Qed.
Print Assumptions C69_unique.
(** Above norm 1 this is not so: both basis states have the same weight, but only 0 is ever returned. *)
Theorem C69_above_one_refuted : exists psi : state, sqnorm 1 psi = 2%R /\ Cnorm2 (psi 0) = Cnorm2 (psi 1) /\
  forall count rounds l, (forall draw i, In draw rounds -> unit_draw (draw i)) -> sampling 1 psi count rounds = Some l -> forall x, In x l -> x = 0.
Proof. exact sampling_above_one. Qed.
Print Assumptions C69_above_one_refuted.

(** Two samples of (|0> + |1>) / sqrt 2: each pair comes up in a quarter of the cases. *)
Example C69_example a b : a < 2 -> b < 2 ->
  averaged 2 (fun us v => forall rest, exists l, sampling 1 plus_state 2 ((fun i => nth (N.to_nat i) us 0%R) :: rest) = Some l /\
      (if list_eq_dec N.eq_dec l [a; b] then C1 else C0) = v) ((1 / 4)%R, 0%R).
Proof. exact (plus_pairs a b). Qed.
