(** C77: several measurements, one after another, follow the Born rule jointly. *)
From Verif Require Import BornProofs2.
From Verif Require Import BornSpec.

(** Measuring different qubits into different bits, in any order, with or without reset: the bits come out as vs with the
    weight that the state had on the basis states in which those qubits show vs. *)
Theorem C77_born n L ps c ms psi r0 vs : n < 64 -> lanes_ok L -> circuit_is c (measurements ms) -> sqnorm n psi = 1%R ->
  Forall (fun q => q < n) (map (fun m => fst (fst m)) ms) -> Forall (fun b => b < N.of_nat (length r0)) (map (fun m => snd (fst m)) ms) ->
  NoDup (map (fun m => fst (fst m)) ms) -> NoDup (map (fun m => snd (fst m)) ms) -> length vs = length ms ->
  averaged (length ms) (run_gives n (circuit_update n L ps c) psi r0 (fun w => if bits_show ms vs (w_reg w) then C1 else C0)) (RtoC (prob n (qubits_show ms vs) psi)).
Proof. exact (born_rule n L ps c ms psi r0 vs). Qed.
Print Assumptions C77_born.
(** Measuring all qubits gives the bits of x with probability |psi x|^2. *)
Theorem C77_all n L ps c ms psi r0 x : n < 64 -> lanes_ok L -> circuit_is c (measurements ms) -> sqnorm n psi = 1%R ->
  Forall (fun q => q < n) (map (fun m => fst (fst m)) ms) -> Forall (fun b => b < N.of_nat (length r0)) (map (fun m => snd (fst m)) ms) ->
  NoDup (map (fun m => fst (fst m)) ms) -> NoDup (map (fun m => snd (fst m)) ms) -> (forall q, q < n -> In q (map (fun m => fst (fst m)) ms)) -> x < 2 ^ n ->
  averaged (length ms) (run_gives n (circuit_update n L ps c) psi r0 (fun w => if bits_show ms (map (fun m => N.testbit x (fst (fst m))) ms) (w_reg w) then C1 else C0)) (RtoC (Cnorm2 (psi x))).
Proof. exact (born_all n L ps c ms psi r0 x). Qed.
Print Assumptions C77_all.
(** Measurements at the end of any circuit (with noise, conditions and measurements of its own): the bits come out as vs
    as often as the circuit without them leaves, on average, weight on those basis states. *)
Theorem C77_joint n L L' ps c0 c p0 ms l psi r0 vs : n < 64 -> lanes_ok L -> lanes_ok L' -> circuit_is c0 p0 -> circuit_is c (p0 ++ measurements ms) -> norm_kept n ps p0 -> sqnorm n psi = 1%R ->
  Forall (fun q => q < n) (program_operands (p0 ++ measurements ms)) -> instantiate ps (p0 ++ measurements ms) = Some l -> orderly (length r0) [] l ->
  NoDup (map (fun m => fst (fst m)) ms) -> NoDup (map (fun m => snd (fst m)) ms) -> length vs = length ms ->
  exists l0 v, instantiate ps p0 = Some l0 /\
    averaged (draws_list l0) (run_gives n (circuit_update n L' ps c0) psi r0 (fun w => RtoC (prob n (qubits_show ms vs) (w_amp w)))) v /\
    averaged (draws_list l) (run_gives n (circuit_update n L ps c) psi r0 (fun w => if bits_show ms vs (w_reg w) then C1 else C0)) v.
Proof. exact (joint_programs n L L' ps c0 c p0 ms l psi r0 vs). Qed.
Print Assumptions C77_joint.

(** Qubits 0 and 1 of (3/5)|00> + (4/5)|01> (qubit 0 last). *)
Example C77_example : circuit_is (build OrderProofs4.meas_calls) (measurements both_measured) /\ sqnorm 2 OrderProofs4.uneven = 1%R /\ (forall q, q < 2 -> In q (map (fun m => fst (fst m)) both_measured)) /\
  prob 2 (qubits_show both_measured [true; false]) OrderProofs4.uneven = (16 / 25)%R.
Proof. exact born_example. Qed.
(** H(0), H(1), then both measured. *)
Example C77_joint_example : circuit_is (build OrderProofs4.two_calls) ([(SFixed (act_of (Call1 GH 0 [] [])), None); (SFixed (act_of (Call1 GH 1 [] [])), None)] ++ measurements both_measured) /\
  norm_kept 2 (fun _ => None) [(SFixed (act_of (Call1 GH 0 [] [])), None); (SFixed (act_of (Call1 GH 1 [] [])), None)] /\ Forall (fun q => q < 2) (program_operands OrderProofs4.two_program) /\
  exists l, instantiate (fun _ => None) OrderProofs4.two_program = Some l /\ orderly 2 [] l /\ draws_list l = 2%nat.
Proof. exact joint_example. Qed.
