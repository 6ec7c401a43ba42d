(** Measurement, probabilistic gates, noise and circuits: C20, C26-C29, C32, C45 and C52. *)
From Verif Require Import GateSpec State StateSpec Circuit CircuitSpec.
From Verif Require CircuitProofs12 CircuitProofs18 CircuitProofs19.

(** C29: measurement.  [b] is the outcome, [p] its probability. *)
Theorem C29_measurement : forall n L q bit reset g w, n < 64 -> lanes_ok L -> q < n -> make_measurement q bit reset = Ok g ->
  bit < N.of_nat (length (w_reg w)) -> sqnorm n (w_amp w) = 1%R -> unit_draw (w_rand w 0%nat) ->
  exists b p, p = prob n (fun x => Bool.eqb (N.testbit x q) b) (w_amp w) /\ (0 < p)%R /\
    (b = false <-> (w_rand w 0%nat < prob n (fun x => negb (N.testbit x q)) (w_amp w))%R) /\
    runs (cgate_update n L g) w (done (fun _ w' =>
      (forall x, x < 2 ^ n -> w_amp w' x =
         if Bool.eqb (N.testbit x q) (b && negb reset) then Cscale (/ sqrt p) (w_amp w (if b then N.setbit x q else N.clearbit x q)) else C0) /\
      sqnorm n (w_amp w') = 1%R /\
      nth_error (w_reg w') (N.to_nat bit) = Some b /\ length (w_reg w') = length (w_reg w) /\
      (forall j, j <> N.to_nat bit -> nth_error (w_reg w') j = nth_error (w_reg w) j) /\
      w_home w' = w_home w /\ (forall i, w_rand w' i = w_rand w (S i)))).
Proof. exact CircuitProofs6.measurement_correct. Qed.
Print Assumptions C29_measurement.
Theorem C29_rejected : forall n L q bit reset g w, n < 64 -> make_measurement q bit reset = Ok g ->
  (n <= q \/ N.of_nat (length (w_reg w)) <= bit) -> throws (cgate_update n L g) w.
Proof. exact CircuitProofs6.measurement_rejects. Qed.
Print Assumptions C29_rejected.
(** The norm is not checked, and a probability above 1 is outside the contract of the random distribution. *)
Theorem C29_unnormalised_refuted : exists n q bit psi reg, q < n /\ bit < N.of_nat (length reg) /\
  exists g, make_measurement q bit false = Ok g /\
  forall r L, undefined (cgate_update n L g) (World psi None reg r).
Proof. exact CircuitProofs6.measurement_unnormalised. Qed.
Print Assumptions C29_unnormalised_refuted.
Example C29_example : make_measurement 0 0 true = Ok (CMeas 1 0 true) /\ sqnorm 2 (fun x => if x =? 0 then C1 else C0) = 1%R.
Proof. exact (conj eq_refl CircuitProofs10.ex_zero_norm). Qed.

(** C32: probabilistic gates.  Gate i runs when the draw u falls into the i-th interval. *)
Theorem C32_execution : forall n L dist gs ss t w s u, n < 64 -> lanes_ok L ->
  stands (CProb t dist gs) (Choice (combine dist ss)) -> Forall2 stands gs ss ->
  Forall (fun q => q < n) (operands (Choice (combine dist ss))) ->
  same_state n w s -> (forall k, unit_draw (w_rand w k)) -> u = w_rand w 0%nat ->
  (forall us, Forall unit_draw us -> ~ step n (Choice (combine dist ss)) us s SOutside) ->
  exists i sg, in_interval dist i u /\ nth_error ss i = Some sg /\
    runs (cgate_update n L (CProb t dist gs)) w (fun o => exists us so, step n sg us s so /\ used w (u :: us) o /\ ends_as n o so).
Proof. exact CircuitProofs7.choice_execution. Qed.
Print Assumptions C32_execution.
(** Valid distributions are accepted, all others rejected; *)
Theorem C32_validation : forall dist gs ss, Forall2 stands gs ss ->
  (acceptable dist gs -> exists g s, make_probabilistic dist gs = Ok g /\ stands g s) /\
  (~ acceptable dist gs -> make_probabilistic dist gs = Throw).
Proof. exact CircuitProofs7.factory_accepts. Qed.
Print Assumptions C32_validation.
(** flattening does not change the distribution over the gates executed in the end. *)
Theorem C32_nesting : forall dist gs g F, make_probabilistic dist gs = Ok g ->
  expected F g = Rsuml (fun dg => (fst dg * expected F (snd dg))%R) (combine dist gs).
Proof. exact CircuitProofs7.factory_distribution. Qed.
Print Assumptions C32_nesting.
(** The same for parametric probabilistic gates; v is the value of the parameter. *)
Theorem C32_param_execution : forall n L dist gs ss t w s u v, n < 64 -> lanes_ok L ->
  pstands (inr (PProb t dist gs)) (fun v => Choice (combine dist (map (fun s => s v) ss))) -> Forall2 pstands gs ss ->
  Forall (fun q => q < n) (operands (Choice (combine dist (map (fun s => s v) ss)))) ->
  same_state n w s -> (forall k, unit_draw (w_rand w k)) -> u = w_rand w 0%nat ->
  (forall us, Forall unit_draw us -> ~ step n (Choice (combine dist (map (fun s => s v) ss))) us s SOutside) ->
  runs (pgate_update n L (PProb t dist gs) v) w (fun o => exists i sg us so,
    in_interval dist i u /\ nth_error ss i = Some sg /\ step n (sg v) us s so /\ used w (u :: us) o /\ ends_as n o so).
Proof. exact CircuitProofs12.param_choice_execution. Qed.
Print Assumptions C32_param_execution.
Theorem C32_param_validation : forall dist gs ss, Forall2 pstands gs ss ->
  (vacceptable dist gs -> exists g s, make_param_probabilistic dist gs = Ok g /\ pstands (inr g) s) /\
  (~ vacceptable dist gs -> make_param_probabilistic dist gs = Throw).
Proof. exact CircuitProofs12.param_factory_accepts. Qed.
Print Assumptions C32_param_validation.
Theorem C32_param_nesting : forall dist gs g F, make_param_probabilistic dist gs = Ok g ->
  pexpected F g = Rsuml (fun dg => (fst dg * vexpected F (snd dg))%R) (combine dist gs).
Proof. exact CircuitProofs12.param_factory_distribution. Qed.
Print Assumptions C32_param_nesting.
Example C32_param_example : vacceptable [1 / 2; 1 / 2]%R [inr CircuitProofs10.ex_RX; inl (CElem (true, CircuitProofs10.ex_X))] /\
  exists ss, Forall2 pstands [inr CircuitProofs10.ex_RX; inl (CElem (true, CircuitProofs10.ex_X))] ss.
Proof. exact CircuitProofs12.param_probabilistic_example. Qed.
Example C32_example : exists g inner dist gs, make_probabilistic dist gs = Ok g /\
  gs = [inner; CElem (true, CircuitProofs10.ex_X)] /\ inner = CProb true [1 / 4; 3 / 4]%R [CElem (true, CircuitProofs10.ex_H); noise_I] /\
  acceptable dist gs /\
  g = CProb true [1 / 2 * (1 / 4); 1 / 2 * (3 / 4); 1 / 2]%R [CElem (true, CircuitProofs10.ex_H); noise_I; CElem (true, CircuitProofs10.ex_X)].
Proof. exact CircuitProofs10.probabilistic_example. Qed.

(** C45: the noise factories. *)
Theorem C45_bit_flip : forall vf q p, q < 64 -> (0 <= p <= 1)%R -> exists g, make_bit_flip vf q p = Ok g /\
  stands g (Choice [(p, act_of (Call1 GX q [] [])); (1 - p, act_of CallI)]%R).
Proof. exact CircuitProofs8.bit_flip_ok. Qed.
Print Assumptions C45_bit_flip.
Theorem C45_dephasing : forall vf q p, q < 64 -> (0 <= p <= 1)%R -> exists g, make_dephasing vf q p = Ok g /\
  stands g (Choice [(p, act_of (Call1 GZ q [] [])); (1 - p, act_of CallI)]%R).
Proof. exact CircuitProofs8.dephasing_ok. Qed.
Print Assumptions C45_dephasing.
Theorem C45_bit_flip_and_dephasing : forall vf q p, q < 64 -> (0 <= p <= 1)%R -> exists g, make_bit_flip_and_dephasing vf q p = Ok g /\
  stands g (Choice [(p * p, act_of (Call1 GY q [] [])); (p * (1 - p), act_of (Call1 GX q [] []));
                    (p * (1 - p), act_of (Call1 GZ q [] [])); ((1 - p) * (1 - p), act_of CallI)]%R).
Proof. exact CircuitProofs8.both_ok. Qed.
Print Assumptions C45_bit_flip_and_dephasing.
Theorem C45_depolarizing : forall vf q p, q < 64 -> (0 <= p <= 1)%R -> exists g, make_depolarizing vf q p = Ok g /\
  stands g (Choice [(p / 3, act_of (Call1 GX q [] [])); (p / 3, act_of (Call1 GY q [] []));
                    (p / 3, act_of (Call1 GZ q [] [])); (1 - p, act_of CallI)]%R).
Proof. exact CircuitProofs8.depolarizing_ok. Qed.
Print Assumptions C45_depolarizing.
Theorem C45_rejected : forall vf q p, 64 <= q \/ ~ (0 <= p <= 1)%R ->
  make_bit_flip vf q p = Throw /\ make_dephasing vf q p = Throw /\ make_bit_flip_and_dephasing vf q p = Throw /\ make_depolarizing vf q p = Throw.
Proof. exact CircuitProofs8.noise_rejected. Qed.
Print Assumptions C45_rejected.
(** The combined noise is bit flip noise followed by dephasing noise. *)
Theorem C45_composition : forall q p psi x y,
  mixed [(p * p, on_qubit GY q); (p * (1 - p), on_qubit GX q); (p * (1 - p), on_qubit GZ q); ((1 - p) * (1 - p), nothing)]%R psi x y =
  mixed (both [(p, on_qubit GX q); (1 - p, nothing)]%R [(p, on_qubit GZ q); (1 - p, nothing)]%R) psi x y.
Proof. exact CircuitProofs8.noise_composition. Qed.
Print Assumptions C45_composition.
Example C45_example : (0 <= 1 / 10 <= 1)%R /\ 3 < 64.
Proof. split; [split; Lra.lra|reflexivity]. Qed.

(** C26: a run of the circuit is a run of its program. *)
Theorem C26_execution : forall n L ps c p w s, n < 64 -> lanes_ok L -> circuit_is c p -> same_state n w s ->
  (forall k, unit_draw (w_rand w k)) ->
  (forall us, Forall unit_draw us -> ~ run_program watch_all n ps p us s SOutside) ->
  runs (circuit_update n L ps c) w (fun o => exists us so, run_program watch_all n ps p us s so /\ used w us o /\ ends_as n o so).
Proof. exact CircuitProofs4.circuit_runs. Qed.
Print Assumptions C26_execution.
(** Without a register argument: circuits with conditions or measurements are refused, the others run as above with an
    empty register. *)
Theorem C26_register_needed : forall n L ps c w, ((exists f, In (Some f) (c_conds c)) \/ exists t b r, In (IGate (CMeas t b r)) (c_gates c)) ->
  runs (circuit_update_plain n L ps c) w (fun o => o = HThrown w).
Proof. exact CircuitProofs19.plain_rejects. Qed.
Print Assumptions C26_register_needed.
Theorem C26_without_register : forall n L ps c p w s, n < 64 -> lanes_ok L -> circuit_is c p -> same_state n (set_reg [] w) s ->
  (forall f, ~ In (Some f) (c_conds c)) -> (forall t b r, ~ In (IGate (CMeas t b r)) (c_gates c)) ->
  (forall k, unit_draw (w_rand w k)) ->
  (forall us, Forall unit_draw us -> ~ run_program watch_all n ps p us s SOutside) ->
  runs (circuit_update_plain n L ps c) w (fun o => exists us so, run_program watch_all n ps p us s so /\ used (set_reg [] w) us o /\ ends_as n o so).
Proof. exact CircuitProofs19.plain_runs. Qed.
Print Assumptions C26_without_register.
(** The program determines the run, *)
Theorem C26_deterministic : forall watched n l ms r us us' s o o', Forall (fun gc => proper (fst gc)) l ->
  us = map r (seq 0 (length us)) -> us' = map r (seq 0 (length us')) ->
  exec_list watched n l ms us s o -> exec_list watched n l ms us' s o' -> us = us' /\ o = o'.
Proof. exact (fun w n l ms r us us' s o o' H => CircuitProofs5.exec_deterministic w n l H ms r us us' s o o'). Qed.
Print Assumptions C26_deterministic.
(** and programs of norm-keeping gates on normalised states keep the promise. *)
Theorem C26_inside : forall watched n ps p us s, norm_kept n ps p -> Forall unit_draw us -> sqnorm n (s_psi s) = 1%R ->
  ~ run_program watched n ps p us s SOutside.
Proof. exact CircuitProofs5.program_inside. Qed.
Print Assumptions C26_inside.
Theorem C26_unitary_gates : forall n vf k g, n < 64 -> call_typed k -> make vf k = Ok g -> call_unitary k ->
  Forall (fun q => q < n) (call_operands k) -> keeps_norm n (act_of k).
Proof. exact CircuitProofs5.unitary_act_keeps. Qed.
Print Assumptions C26_unitary_gates.
(** H(0); measure 0 into bit 0; X(1) if the bit is set; RX(1) by "theta" *)
Example C26_example : circuit_is (build CircuitProofs10.ex_calls) CircuitProofs10.ex_program /\
  forall us r, Forall unit_draw us ->
    ~ run_program watch_all 2 (fun _ => Some 1%R) CircuitProofs10.ex_program us (SState CircuitProofs10.ex_zero r) SOutside.
Proof. exact CircuitProofs10.circuit_example. Qed.

(** C52: after any sequence of calls, every gate is where it was put and carries its own condition. *)
Theorem C52_history : forall l, c_gates (build l) = map fst (flat_map says l) /\ c_conds (build l) = map snd (flat_map says l).
Proof. exact CircuitProofs9.build_spec. Qed.
Print Assumptions C52_history.
Theorem C52_program : forall l p,
  Forall2 (fun gc sc => represents (fst gc) (fst sc) /\ snd gc = snd sc) (flat_map says l) p -> circuit_is (build l) p.
Proof. exact CircuitProofs9.build_program. Qed.
Print Assumptions C52_program.
Example C52_example : length (c_gates (build CircuitProofs10.ex_calls)) = 4%nat /\
  nth 2 (c_conds (build CircuitProofs10.ex_calls)) None = Some (bit_cond 0 true).
Proof. split; reflexivity. Qed.

(** C20: a circuit of factory gates, with or without parameters and conditions, and its inverse. *)
Theorem C20_circuit_inverse_partial : forall l, let c := build l in Forall factory_made (c_gates c) ->
  exists c', circuit_inverse c = Ok c' /\ c_conds c' = rev (c_conds c) /\ length (c_gates c') = length (c_gates c) /\
  forall n L ps w, n < 64 -> lanes_ok L -> required_n_qubits c <= n -> (forall key, In key (keys c) -> ps key <> None) ->
  (forall f, In (Some f) (c_conds c) -> exists b, f (w_reg w) = Ok b) -> (forall k, unit_draw (w_rand w k)) ->
  runs (circuit_update n L ps c;~ circuit_update n L ps c') w (done (fun _ w' =>
    (forall x, x < 2 ^ n -> w_amp w' x = w_amp w x) /\ w_reg w' = w_reg w /\ forall i, w_rand w' i = w_rand w i)).
Proof. exact CircuitProofs10.history_inverse. Qed.
Print Assumptions C20_circuit_inverse_partial.
(** Measurements and gates without inverse make get_inverse throw. *)
Theorem C20_not_invertible : forall c, Forall (fun i => factory_made i \/ not_invertible i) (c_gates c) ->
  Exists not_invertible (c_gates c) -> circuit_inverse c = Throw.
Proof. exact CircuitProofs10.inverse_rejected. Qed.
Print Assumptions C20_not_invertible.
Example C20_example : Forall factory_made (c_gates (build
  [OGate (CElem (true, CircuitProofs10.ex_H)); OCondGate (CElem (true, CircuitProofs10.ex_X)) (bit_cond 0 true); OParam CircuitProofs10.ex_RX "theta"])).
Proof. exact CircuitProofs10.inverse_example'. Qed.

(** C28: calculate_depth is the length of the longest chain of gates that share a qubit with their successor. *)
Theorem C28_depth_partial : forall c p, circuit_is c p -> forallb (fun i => negb (is_probabilistic i)) (c_gates c) = true ->
  exists d, calculate_depth c = Ok d /\
    (exists ch, chosen ch (map (fun ic => item_operands (fst ic)) p) /\ chain ch /\ N.of_nat (length ch) = d) /\
    forall ch, chosen ch (map (fun ic => item_operands (fst ic)) p) -> chain ch -> N.of_nat (length ch) <= d.
Proof. exact CircuitProofs11.depth_correct. Qed.
Print Assumptions C28_depth_partial.
(** With a probabilistic gate in the circuit it throws. *)
Theorem C28_probabilistic_refuted : forall c p, circuit_is c p -> existsb is_probabilistic (c_gates c) = true ->
  required_n_qubits c <> 0 -> calculate_depth c = Throw.
Proof. exact CircuitProofs11.depth_probabilistic. Qed.
Print Assumptions C28_probabilistic_refuted.
Example C28_example : calculate_depth (build CircuitProofs10.ex_calls) = Ok 2 /\ chain [[0]; [0]] /\
  chosen [[0]; [0]] (map (fun ic => item_operands (fst ic)) CircuitProofs10.ex_program).
Proof. exact CircuitProofs11.depth_example. Qed.

(** C27: batched circuits.  On every element the update is a run of the program on that element alone, with random
    numbers of its own ([use b] are their positions in the generator's sequence).  If an element throws, so does the
    call. *)
Theorem C27_circuit_partial : forall n B L ps c p w, sizes_ok n B L -> 0 < B -> circuit_is c p -> views_stay c -> registers_ok B w ->
  (forall k, unit_draw (bw_rand w k)) ->
  (forall key, keyed p key -> forall vs, ps key = Some vs -> N.of_nat (length vs) = B) ->
  (forall b us, b < B -> Forall unit_draw us ->
     ~ run_program watch_unconditional n (element_params ps b) p us (element n w b) SOutside) ->
  runs (b_circuit_update n B L ps c) w (fun o =>
    match o with
    | HDone _ w' => registers_ok B w' /\ exists use, separate B use /\ forall b, b < B -> exists s',
        run_program watch_unconditional n (element_params ps b) p (map (bw_rand w) (use b)) (element n w b) (SDone s') /\
        is_element n w' b s'
    | HThrown w' => exists b us s', b < B /\ Forall unit_draw us /\
        run_program watch_unconditional n (element_params ps b) p us (element n w b) (SThrown s') /\ is_element n w' b s'
    | HUndefined => False
    end).
Proof. exact CircuitProofs17.b_circuit_runs. Qed.
Print Assumptions C27_circuit_partial.
(** Hence running the circuit on a single state equal to element b, with the same random numbers, ends in element b
    of the result. *)
Theorem C27_circuit_single_partial : forall n B L ps c p w, sizes_ok n B L -> 0 < B -> circuit_is c p -> unambiguous p -> views_stay c ->
  registers_ok B w -> (forall k, unit_draw (bw_rand w k)) ->
  (forall key, keyed p key -> forall vs, ps key = Some vs -> N.of_nat (length vs) = B) ->
  (forall b us, b < B -> Forall unit_draw us -> ~ run_program watch_all n (element_params ps b) p us (element n w b) SOutside) ->
  runs (b_circuit_update n B L ps c) w (fun o =>
    match o with
    | HDone _ w' => exists use, separate B use /\ forall b L' w1, b < B -> lanes_ok L' -> same_state n w1 (element n w b) ->
        (forall k, unit_draw (w_rand w1 k)) -> (forall i k, nth_error (use b) i = Some k -> w_rand w1 i = bw_rand w k) ->
        runs (circuit_update n L' (element_params ps b) c) w1 (done (fun _ w1' => same_state n w1' (element n w' b)))
    | HThrown w' => exists b us, b < B /\ Forall unit_draw us /\ forall L' w1, lanes_ok L' -> same_state n w1 (element n w b) ->
        (forall k, unit_draw (w_rand w1 k)) -> (forall i u, nth_error us i = Some u -> w_rand w1 i = u) ->
        runs (circuit_update n L' (element_params ps b) c) w1
          (fun o1 => exists w1', o1 = HThrown w1' /\ same_state n w1' (element n w' b))
    | HUndefined => False
    end).
Proof. exact CircuitProofs17.b_circuit_single. Qed.
Print Assumptions C27_circuit_single_partial.
(** Too few qubits, a wrong number of registers, a missing parameter or one of the wrong length: rejected, nothing changed. *)
Theorem C27_circuit_rejected : forall n B L ps c w, n < required_n_qubits c \/ N.of_nat (length (br_regs (bw_regs w))) <> B \/
  (exists key, In key (keys c) /\ match ps key with Some vs => N.of_nat (length vs) <> B | None => True end) ->
  runs (b_circuit_update n B L ps c) w (fun o => o = HThrown w).
Proof. exact CircuitProofs17.b_circuit_rejects. Qed.
Print Assumptions C27_circuit_rejected.
(** The two side conditions are needed.  A conditional sparse-matrix gate changes a single state but not a batch: *)
Theorem C27_buffered_conditional_refuted : exists c p, circuit_is c p /\ unambiguous p /\
  forall psi reg r L, lanes_ok L -> (forall k, unit_draw (r k)) ->
  runs (circuit_update 1 L (fun _ => None) c) (World psi None reg r) (done (fun _ w' => w_amp w' 0 = psi 1 /\ w_amp w' 1 = psi 0)) /\
  runs (b_circuit_update 1 1 L (fun _ => None) c) (BWorld psi (BReg [reg] (N.of_nat (length reg))) r)
    (done (fun _ w' => bw_amp w' 0 = psi 0 /\ bw_amp w' 1 = psi 1)).
Proof. exact CircuitProofs18.lost_refuted. Qed.
Print Assumptions C27_buffered_conditional_refuted.
(** and a conditional gate on a measured qubit throws on a single state but not on a batch. *)
Theorem C27_measured_conditional_refuted : exists c p, circuit_is c p /\ views_stay c /\
  forall r L, lanes_ok L -> (forall k, unit_draw (r k)) ->
  runs (circuit_update 1 L (fun _ => None) c) (World CircuitProofs10.ex_zero None [false] r) (fun o => exists w', o = HThrown w') /\
  runs (b_circuit_update 1 1 L (fun _ => None) c) (BWorld CircuitProofs10.ex_zero (BReg [[false]] 1) r) (done (fun _ w' => True)).
Proof. exact CircuitProofs18.skipped_check_refuted. Qed.
Print Assumptions C27_measured_conditional_refuted.
Example C27_circuit_example : sizes_ok 2 3 8 /\ circuit_is (build CircuitProofs10.ex_calls) CircuitProofs10.ex_program /\
  views_stay (build CircuitProofs10.ex_calls) /\
  registers_ok 3 (BWorld (fun a => CircuitProofs10.ex_zero (a mod 4)) (BReg [[false]; [true]; [false]] 1) (fun _ => 0%R)) /\
  forall b us, b < 3 -> Forall unit_draw us ->
    ~ run_program watch_unconditional 2 (element_params (fun _ => Some [1; 1; 1]%R) b) CircuitProofs10.ex_program us
        (element 2 (BWorld (fun a => CircuitProofs10.ex_zero (a mod 4)) (BReg [[false]; [true]; [false]] 1) (fun _ => 0%R)) b) SOutside.
Proof. exact CircuitProofs18.batch_example. Qed.
