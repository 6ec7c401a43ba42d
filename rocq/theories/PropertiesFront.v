(** C72: calling update_quantum_state from Python.
    [engine s] is the sequence of random numbers of the seed s.  The register, if one is given, is the one of the world. *)
From Verif Require Import FrontSpec.
From Verif Require FrontProofs2.
Open Scope N_scope.

(** Parameters given by name are the parameters given in a dict, and the circuit runs with these. *)
Theorem C72_parameters : forall engine n L c reg seed l ps, has_entries l ps ->
  same_calls (py_circuit engine n L c reg NoDict seed (numbers l)) (py_circuit engine n L c reg (SingleDict l) seed []) /\
  (reg = NoRegister -> same_calls (py_circuit engine n L c reg (SingleDict l) seed []) (circuit_call_default engine n L ps c seed)) /\
  (reg = OneRegister -> same_calls (py_circuit engine n L c reg (SingleDict l) seed []) (circuit_call engine n L ps c seed)).
Proof. exact FrontProofs.circuit_parameters. Qed.
Print Assumptions C72_parameters.
Theorem C72_batched_parameters : forall engine n B L c reg seed l ps, has_entries l ps ->
  same_calls (py_b_circuit engine n B L c reg NoDict seed (sequences l)) (py_b_circuit engine n B L c reg (BatchedDict l) seed []) /\
  (reg = NoRegister -> same_calls (py_b_circuit engine n B L c reg (BatchedDict l) seed []) (b_circuit_call_default engine n B L ps c seed)) /\
  (reg = BatchRegister -> same_calls (py_b_circuit engine n B L c reg (BatchedDict l) seed []) (b_circuit_call engine n B L ps c seed)).
Proof. exact FrontProofs.b_circuit_parameters. Qed.
Print Assumptions C72_batched_parameters.
Example C72_parameters_example :
  has_entries [("a"%string, 1%R); ("b"%string, 2%R)]
    (fun k => if String.eqb k "a" then Some 1%R else if String.eqb k "b" then Some 2%R else None).
Proof.
  split; [repeat constructor; cbn; intuition discriminate|]. intros k v. cbn [In].
  destruct (String.eqb_spec k "a") as [->|Ha]; [split; [injection 1 as <-; now left|intros [E|[E|[]]]; [now injection E as <-|discriminate]]|].
  destruct (String.eqb_spec k "b") as [->|Hb]; [split; [injection 1 as <-; right; now left|intros [E|[E|[]]]; [discriminate|now injection E as <-]]|].
  split; [discriminate|]. intros [E|[E|[]]]; injection E as E _; congruence.
Qed.
(** An empty dict is no parameters, for one state and for a batch. *)
Theorem C72_empty : forall engine n B L c reg seed,
  same_calls (py_circuit engine n L c reg (BatchedDict []) seed []) (py_circuit engine n L c reg NoDict seed []) /\
  same_calls (py_b_circuit engine n B L c reg (SingleDict []) seed []) (py_b_circuit engine n B L c reg NoDict seed []).
Proof. exact FrontProofs.circuit_no_parameters. Qed.
Print Assumptions C72_empty.
(** Parameters the circuit does not have make no difference; *)
Theorem C72_extra : forall engine n L c reg seed l ps l' ps', has_entries l ps -> has_entries l' ps' ->
  (forall k, In k (keys c) -> ps k = ps' k) ->
  same_calls (py_circuit engine n L c reg (SingleDict l) seed []) (py_circuit engine n L c reg (SingleDict l') seed []).
Proof. exact FrontProofs2.circuit_extra. Qed.
Print Assumptions C72_extra.
Theorem C72_batched_extra : forall engine n B L c reg seed l ps l' ps', has_entries l ps -> has_entries l' ps' ->
  (forall k, In k (keys c) -> ps k = ps' k) ->
  same_calls (py_b_circuit engine n B L c reg (BatchedDict l) seed []) (py_b_circuit engine n B L c reg (BatchedDict l') seed []).
Proof. exact FrontProofs2.b_circuit_extra. Qed.
Print Assumptions C72_batched_extra.
(** a parameter that is not given makes the call throw, whatever the random numbers, with the state unchanged. *)
Theorem C72_missing : forall engine n L c reg seed l ps w, has_entries l ps -> (exists k, In k (keys c) /\ ps k = None) ->
  runs (py_circuit engine n L c reg (SingleDict l) seed []) w
    (fun o => exists w', o = HThrown w' /\ w_amp w' = w_amp w /\ (reg <> NoRegister -> w_reg w' = w_reg w)).
Proof. exact FrontProofs2.circuit_missing. Qed.
Print Assumptions C72_missing.
Example C72_missing_example : exists c, In "a"%string (keys c) /\ has_entries [] (fun _ : string => @None R).
Proof.
  exists (Circuit [IParam (PRot true RotX (GBase 1 0 0) 1) "a"%string] [None]). split; [now left|]. split; [constructor|].
  intros k v. split; [discriminate|intros []].
Qed.

(** Calls that make no sense are rejected with nothing changed: parameters given in two ways or for the wrong kind of
    state, a register of the wrong kind, a keyword that is not a number (for a batch: not a sequence). *)
Theorem C72_rejects : forall engine n L c reg d seed kw,
  (d <> NoDict /\ kw <> []) \/ (exists e l, d = BatchedDict (e :: l)) \/ reg = BatchRegister \/
  (exists k v, In (k, v) kw /\ forall x, v <> PyNumber x) ->
  rejected (py_circuit engine n L c reg d seed kw).
Proof. exact FrontProofs.circuit_rejects. Qed.
Print Assumptions C72_rejects.
Theorem C72_batched_rejects : forall engine n B L c reg d seed kw,
  (d <> NoDict /\ kw <> []) \/ (exists e l, d = SingleDict (e :: l)) \/ reg = OneRegister \/
  (exists k v, In (k, v) kw /\ forall x, v <> PySequence x) ->
  rejected (py_b_circuit engine n B L c reg d seed kw).
Proof. exact FrontProofs.b_circuit_rejects. Qed.
Print Assumptions C72_batched_rejects.
Example C72_rejects_example : BatchedDict [] <> NoDict /\ [("a"%string, PyNumber 1)] <> [] /\
  exists k v, In (k, v) [("a"%string, PyNumber 1); ("b"%string, PySequence [1%R])] /\ forall x, v <> PyNumber x.
Proof. split; [discriminate|]. split; [discriminate|]. do 2 eexists. split; [right; now left|discriminate]. Qed.
Theorem C72_gate_rejects : forall engine n B L g seed,
  rejected (py_gate engine n L g BatchRegister seed) /\ rejected (py_b_gate engine n B L g OneRegister seed).
Proof. exact FrontProofs.gate_rejects. Qed.
Print Assumptions C72_gate_rejects.
Theorem C72_param_gate_rejects : forall engine n B L g v reg seed,
  ((forall x, v <> OneValue x) \/ reg = BatchRegister -> rejected (py_pgate engine n L g v reg seed)) /\
  ((forall x, v <> Values x) \/ reg = OneRegister -> rejected (py_b_pgate engine n B L g v reg seed)).
Proof. exact (fun engine n B L g v reg seed => conj (FrontProofs.pgate_rejects engine n L g v reg seed) (FrontProofs.b_pgate_rejects engine n B L g v reg seed)). Qed.
Print Assumptions C72_param_gate_rejects.

(** What a call does depends on the seed and the arguments only, not on what was drawn before, *)
Theorem C72_repeatable : forall engine n B L c g p v reg d seed kw,
  repeatable same_but_random (py_circuit engine n L c reg d seed kw) /\
  repeatable b_same_but_random (py_b_circuit engine n B L c reg d seed kw) /\
  repeatable same_but_random (py_gate engine n L g reg seed) /\
  repeatable b_same_but_random (py_b_gate engine n B L g reg seed) /\
  repeatable same_but_random (py_pgate engine n L p v reg seed) /\
  repeatable b_same_but_random (py_b_pgate engine n B L p v reg seed).
Proof.
  exact (fun engine n B L c g p v reg d seed kw =>
    conj (FrontProofs.circuit_repeatable engine n L c reg d seed kw) (conj (FrontProofs.b_circuit_repeatable engine n B L c reg d seed kw)
    (conj (FrontProofs.gate_repeatable engine n L g reg seed) (conj (FrontProofs.b_gate_repeatable engine n B L g reg seed)
    (conj (FrontProofs.pgate_repeatable engine n L p v reg seed) (FrontProofs.b_pgate_repeatable engine n B L p v reg seed)))))).
Qed.
Print Assumptions C72_repeatable.
(** and a call without a seed does what it does with some seed. *)
Theorem C72_some_seed_partial : forall engine n B L c g p v reg d kw,
  some_seed (fun s => py_circuit engine n L c reg d s kw) /\
  some_seed (fun s => py_b_circuit engine n B L c reg d s kw) /\
  some_seed (py_gate engine n L g reg) /\
  some_seed (py_b_gate engine n B L g reg) /\
  some_seed (py_pgate engine n L p v reg) /\
  ((reg = NoRegister -> forall vs, v = Values vs -> N.of_nat (length vs) = B) -> some_seed (py_b_pgate engine n B L p v reg)).
Proof.
  exact (fun engine n B L c g p v reg d kw =>
    conj (FrontProofs.circuit_some engine n L c reg d kw) (conj (FrontProofs.b_circuit_some engine n B L c reg d kw)
    (conj (FrontProofs.gate_some engine n L g reg) (conj (FrontProofs.b_gate_some engine n B L g reg)
    (conj (FrontProofs.pgate_some engine n L p v reg) (FrontProofs.b_pgate_some engine n B L p v reg)))))).
Qed.
Print Assumptions C72_some_seed_partial.
(** The condition is needed.  With a seed or a register, a list whose length is not the batch size is rejected; *)
Theorem C72_param_length : forall engine n B L g vs s, N.of_nat (length vs) <> B ->
  forall w, runs (py_b_pgate engine n B L g (Values vs) NoRegister (Some s)) w (fun o => exists w', o = HThrown w' /\ bw_amp w' = bw_amp w) /\
  runs (py_b_pgate engine n B L g (Values vs) BatchRegister (Some s)) w (fun o => o = HThrown w).
Proof. exact FrontProofs.b_pgate_length. Qed.
Print Assumptions C72_param_length.
(** without both, a rotation given too short a list reads past its end. *)
Theorem C72_param_length_refuted : forall engine n B L known k b pcoef vs, within_bounds n b = true -> N.of_nat (length vs) < B ->
  breaks (py_b_pgate engine n B L (PRot known k b pcoef) (Values vs) NoRegister None).
Proof. exact FrontProofs.b_pgate_short. Qed.
Print Assumptions C72_param_length_refuted.
Example C72_param_length_example : make_param true (PCallRot RotX 1 1 [] []) = Ok (PRot true RotX (GBase 2 0 0) 1) /\
  within_bounds 2 (GBase 2 0 0) = true /\ N.of_nat (length [1%R]) < 3.
Proof. split; [reflexivity|]. split; reflexivity. Qed.
