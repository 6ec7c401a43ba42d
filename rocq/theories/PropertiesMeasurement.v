(** C65: measurements in rounded arithmetic. *)
From Verif Require Import FloatProofs25.
Open Scope R_scope.

(** A measurement of a state whose amplitudes are numbers of the type and which is at distance [d] of the exact, normalised state
    [phi].  The outcome is what the number drawn says, up to an error of the probability; it is written to the register;
    the state that is left is close to what is left of [phi].  What is asked: the exact probability of 0 is not closer to 1 than
    the error, and outcomes that may occur are not too improbable.  Every schedule, every tree of additions of height [h]. *)
Theorem C65_measurement : forall u eta A n L h, accurate u eta A -> (n < 64)%N -> lanes_ok L -> height_ok u n h -> sign_kept A ->
  forall rnd64 q bit reset g w phi d, make_measurement q bit reset = Ok g -> (q < n)%N -> (bit < N.of_nat (length (w_reg w)))%N ->
  held A (2 ^ n) (w_amp w) -> sqnorm n phi = 1 -> distance n (w_amp w) phi <= d -> d <= 1 ->
  let e := measure_error u eta n h d in bit_prob n q false phi <= 1 - e ->
  (forall b, outcome_about e (bit_prob n q false phi) (w_rand w 0%nat) b -> likely u eta n h d (bit_prob n q b phi)) ->
  runs (f_cgate_update A (shallow h) rnd64 n L g) w (done (fun _ w' => exists b,
    outcome_about e (bit_prob n q false phi) (w_rand w 0%nat) b /\ w_reg w' = with_bit (w_reg w) bit b /\
    distance n (w_amp w') (measured n q reset b phi) <= after_measure u eta n h d (bit_prob n q b phi) /\ held A (2 ^ n) (w_amp w') /\
    (forall i, w_rand w' i = w_rand w (S i)))).
Proof. exact measurement_rounded. Qed.
Print Assumptions C65_measurement.

(** Double precision, up to 40 qubits: a distance up to 10^-9 before the measurement, outcomes of probability 10^-6 at least. *)
Theorem C65_double_measurement : forall A rnd64 n L h q bit reset g w phi d, binary 53 (-1074) A -> (n <= 40)%N -> lanes_ok L -> (N.to_nat n < h <= 10 ^ 6)%nat ->
  make_measurement q bit reset = Ok g -> (q < n)%N -> (bit < N.of_nat (length (w_reg w)))%N ->
  held A (2 ^ n) (w_amp w) -> sqnorm n phi = 1 -> distance n (w_amp w) phi <= d -> d <= / 10 ^ 9 ->
  bit_prob n q false phi <= 1 - / 10 ^ 8 ->
  (forall b, outcome_about (/ 10 ^ 8) (bit_prob n q false phi) (w_rand w 0%nat) b -> / 10 ^ 6 <= bit_prob n q b phi) ->
  runs (f_cgate_update A (shallow h) rnd64 n L g) w (done (fun _ w' => exists b,
    outcome_about (/ 10 ^ 8) (bit_prob n q false phi) (w_rand w 0%nat) b /\ w_reg w' = with_bit (w_reg w) bit b /\
    distance n (w_amp w') (measured n q reset b phi) <= 2 * d / sqrt (bit_prob n q b phi) + 2 / 10 ^ 9 /\ held A (2 ^ n) (w_amp w') /\
    (forall i, w_rand w' i = w_rand w (S i)))).
Proof. exact double_measure. Qed.
Print Assumptions C65_double_measurement.

(** A circuit of unitary gates, rotations by parameters, measurements, gates chosen by chance and conditions on the register.
    If the numbers drawn decide the measurements and the choices of the exact run, the rounded run shows the same outcomes,
    makes the same choices, takes the same branches, and its state stays within the distance that accumulates along the exact
    run.  [rnd64] rounds the sums of probabilities, which are doubles in every precision. *)
Theorem C65_circuit : forall u eta e64 A rnd64 n L h ps c l us s d s' d' w, accurate u eta A -> sign_kept A -> adds_doubles e64 rnd64 ->
  (n < 64)%N -> lanes_ok L -> height_ok u n h ->
  dcircuit_is u A n ps c l -> decided u eta e64 n h l [] us s d s' d' -> draws w us -> held A (2 ^ n) (w_amp w) -> sqnorm n (s_psi s) = 1 ->
  distance n (w_amp w) (s_psi s) <= d -> w_reg w = s_reg s ->
  runs (f_circuit_update A (shallow h) rnd64 n L ps c) w (done (fun _ w' =>
    distance n (w_amp w') (s_psi s') <= d' /\ w_reg w' = s_reg s' /\ held A (2 ^ n) (w_amp w') /\ sqnorm n (s_psi s') = 1 /\
    (forall i, w_rand w' i = w_rand w (length us + i)%nat))).
Proof. exact dcircuit_rounded. Qed.
Print Assumptions C65_circuit.
(** ... and that exact run is the run of the reference semantics of circuits. *)
Theorem C65_exact_run : forall u eta e64 A rnd64 n h ps c l us s d s' d', adds_doubles e64 rnd64 -> (n < 64)%N ->
  dcircuit_is u A n ps c l -> decided u eta e64 n h l [] us s d s' d' -> sqnorm n (s_psi s) = 1 ->
  exists p, circuit_is c p /\ run_program watch_all n ps p us s (SDone s').
Proof. exact dcircuit_exact. Qed.
Print Assumptions C65_exact_run.
(** The binary types keep signs, |0...0> consists of their numbers, and the additions of doubles are as exact as asked. *)
Theorem C65_start : forall prec emin A D, (8 <= prec)%Z -> (emin <= 0)%Z -> binary prec emin A ->
  sign_kept A /\ held A D all_zero /\ adds_doubles (/ 2 ^ 51) (nearest 53 (-1074)).
Proof. intros prec emin A D Hp He HA. exact (conj (binary_sign_kept prec emin A Hp HA) (conj (zero_held prec emin A D Hp He HA) doubles_added)). Qed.
Print Assumptions C65_start.

(** A probability close to 1 is not harmless.  H acts on qubit 0 of |00> and qubit 1 is measured: it shows 0 with probability 1 ... *)
Theorem C65_certain : bit_prob 2 1 false (apply_mat [0%N] [] (std1_textbook GH) all_zero) = 1.
Proof. exact certain_exact. Qed.
Print Assumptions C65_certain.
(** ... but in double precision the computed probability is 1 + 2^-52, which std::bernoulli_distribution does not allow; ... *)
Theorem C65_above_one_refuted : exists A, binary 53 (-1074) A /\ forall L rnd64 ps c w, lanes_ok L -> untouched_measured c ->
  (forall x, (x < 4)%N -> w_amp w x = all_zero x) -> w_reg w <> [] ->
  runs (f_circuit_update A in_order rnd64 2 L ps c) w (fun o => o = HUndefined).
Proof. exact above_one. Qed.
Print Assumptions C65_above_one_refuted.
(** ... in single precision it is 1 - 2^-24: a draw above it selects the outcome 1, which is impossible, nothing is left of the
    state, and it is divided by its norm 0. *)
Theorem C65_impossible_outcome_refuted : exists A, binary 24 (-149) A /\ forall L rnd64 ps c w, lanes_ok L -> untouched_measured c ->
  (forall x, (x < 4)%N -> w_amp w x = all_zero x) -> w_reg w <> [] -> 1 - / 2 ^ 24 <= w_rand w 0%nat ->
  runs (f_circuit_update A in_order rnd64 2 L ps c) w (fun o => o = HUndefined).
Proof. exact below_one. Qed.
Print Assumptions C65_impossible_outcome_refuted.

(** H, a measurement with reset, X if it showed 1, RX by a parameter of value 1/2, then X with probability 1/4, in double
    precision; 3/4 and 1/2 are drawn. *)
Example C65_example : dcircuit_is (unit_of 53) (correctly_rounded 53 (-1074)) 1 half_values turning turned /\
  exists s' d', decided (unit_of 53) (tiny_of (-1074)) (/ 2 ^ 51) 1 2 turned [] [3 / 4; / 2] (SState all_zero [false]) 0 s' d' /\ d' <= / 10 ^ 9 /\ s_reg s' = [true].
Proof. exact (conj turning_is turning_decided). Qed.
Example C65_untouched_example : exists c, untouched_measured c.
Proof. exact untouched_example. Qed.
