(** C67: the average over the random numbers of what a circuit leaves is what its quantum channel gives. *)
From Verif Require Import ChannelProofs5.
From Verif Require Import ChannelSpec.

(** Every entry of the density matrix, for every content of the classical register. *)
Theorem C67_channel n L ps c p l psi r0 r i j : n < 64 -> lanes_ok L -> circuit_is c p -> norm_kept n ps p -> sqnorm n psi = 1%R -> never_stops n ps p psi r0 ->
  instantiate ps p = Some l -> i < 2 ^ n -> j < 2 ^ n ->
  averaged (draws_list l) (run_gives n (circuit_update n L ps c) psi r0 (entry r i j)) (channels l (pure psi r0) r i j).
Proof. intros H1 H2 H3 H4 H5 H6 H7. exact (entry_average n L ps c p l psi r0 H1 H2 H3 H4 H5 H6 H7 r i j). Qed.
Print Assumptions C67_channel.
(** Expectation values: tr(A rho_r), where rho_r is what the channel gives for the register content r. *)
Theorem C67_observable n L ps c p l psi r0 (A : matrix) r : n < 64 -> lanes_ok L -> circuit_is c p -> norm_kept n ps p -> sqnorm n psi = 1%R -> never_stops n ps p psi r0 ->
  instantiate ps p = Some l ->
  averaged (draws_list l) (run_gives n (circuit_update n L ps c) psi r0 (fun w => Csum (2 ^ n) (fun i => Csum (2 ^ n) (fun j => A i j * entry r j i w)))%C)
    (Csum (2 ^ n) (fun i => Csum (2 ^ n) (fun j => A i j * channels l (pure psi r0) r j i)))%C.
Proof. intros H1 H2 H3 H4 H5 H6 H7. exact (observable_average n L ps c p l psi r0 H1 H2 H3 H4 H5 H6 H7 A r). Qed.
Print Assumptions C67_observable.
(** How often the register shows r in the end: the trace of rho_r. *)
Theorem C67_register n L ps c p l psi r0 r : n < 64 -> lanes_ok L -> circuit_is c p -> norm_kept n ps p -> sqnorm n psi = 1%R -> never_stops n ps p psi r0 ->
  instantiate ps p = Some l ->
  averaged (draws_list l) (run_gives n (circuit_update n L ps c) psi r0 (shows_register r)) (Csum (2 ^ n) (fun i => channels l (pure psi r0) r i i)).
Proof. intros H1 H2 H3 H4 H5 H6 H7. exact (register_average n L ps c p l psi r0 H1 H2 H3 H4 H5 H6 H7 r). Qed.
Print Assumptions C67_register.
(** The state alone: the sum of the rho_r. *)
Theorem C67_state n L ps c p l psi r0 i j : n < 64 -> lanes_ok L -> circuit_is c p -> norm_kept n ps p -> sqnorm n psi = 1%R -> never_stops n ps p psi r0 ->
  instantiate ps p = Some l -> i < 2 ^ n -> j < 2 ^ n ->
  averaged (draws_list l) (run_gives n (circuit_update n L ps c) psi r0 (fun w => w_amp w i * Cconj (w_amp w j))%C)
    (Csuml (fun r => channels l (pure psi r0) r i j) (registers (length r0))).
Proof. intros H1 H2 H3 H4 H5 H6 H7. exact (state_average n L ps c p l psi r0 H1 H2 H3 H4 H5 H6 H7 i j). Qed.
Print Assumptions C67_state.
(** There is only one such average. *)
Theorem C67_unique n h psi r0 f k v v' : averaged k (run_gives n h psi r0 f) v -> averaged k (run_gives n h psi r0 f) v' -> v = v'.
Proof. exact (average_unique n h psi r0 f k v v'). Qed.
Print Assumptions C67_unique.
(** When the probabilities of a random choice add up to 1 it is the mixture with these weights. *)
Theorem C67_mixture l s : l <> [] -> Forall (fun pg => 0 <= fst pg)%R l -> Rsuml fst l = 1%R ->
  channel (Choice l) s = fold_right (fun pg e => e_add (e_scale (fst pg) (channel (snd pg) s)) e) e_zero l.
Proof. exact (choice_channel l s). Qed.
Print Assumptions C67_mixture.
(** What is enough for no run to be stopped. *)
Theorem C67_never_stops n ps p l psi r0 : Forall (fun q => q < n) (program_operands p) -> instantiate ps p = Some l -> norm_kept n ps p -> sqnorm n psi = 1%R ->
  orderly (length r0) [] l -> never_stops n ps p psi r0.
Proof. exact (orderly_never_stops n ps p l psi r0). Qed.
Print Assumptions C67_never_stops.

(** H(0); measure qubit 0; X(1) if it showed 1; RX(1): the hypotheses hold. *)
Example C67_example : circuit_is (build ex_calls) ex_program /\ norm_kept 2 (fun _ => Some 1%R) ex_program /\ sqnorm 2 ex_zero = 1%R /\
  never_stops 2 (fun _ => Some 1%R) ex_program ex_zero [false] /\ instantiate (fun _ => Some 1%R) ex_program <> None.
Proof. split; [exact ex_built|]. split; [exact ex_kept|]. split; [exact ex_zero_norm|]. split; [exact ex_never_stops|discriminate]. Qed.
(** H, then measure: a fair coin. *)
Example C67_coin L b : lanes_ok L ->
  averaged 1 (run_gives 1 (circuit_update 1 L (fun _ => None) coin_circuit) ex_zero [false] (shows_register [b])) ((1 / 2)%R, 0%R).
Proof. exact (coin_fair L b). Qed.
