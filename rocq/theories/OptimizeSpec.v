(** What Circuit::optimize promises: which circuits its theorem is about, and equality of runs up to a global phase. *)
From Verif Require Export CircuitSpec Optimize.

(** The state with all amplitudes multiplied by exp(i t). *)
Definition turned (t : R) (s : sstate) : sstate := SState (fun x => (Cexpi t * s_psi s x)%C) (s_reg s).

(** A measurement, possibly among the alternatives of a random choice. *)
Fixpoint measuring (g : sgate) : bool :=
  match g with Act _ _ => false | Meas _ _ _ => true | Choice l => existsb (fun pg => measuring (snd pg)) l end.
Definition item_measures (i : sitem) : Prop :=
  match i with SFixed g => measuring g = true | SKeyed _ g => exists v, measuring (g v) = true end.
(** If the program measures anything, its unconditional gates keep the norm. *)
Definition norm_safe (n : N) (p : program) : Prop :=
  (exists i c, In (i, c) p /\ item_measures i) ->
  forall qs f, In (SFixed (Act qs f), None) p -> forall psi, sqnorm n (f psi) = sqnorm n psi.

(** The gates that take part in merging: objects returned by factories and get_inverse.  Left out are the inverses
    of probabilistic gates (they are moved past other probabilistic gates, which changes the order in which random
    numbers are used) and RZ gates with controls (merging may turn them by an angle below 1e-12, which is then not
    a global phase). *)
Definition mergeable (g : cgate) : Prop :=
  match g with
  | CElem e => made e /\ (is_rz e = true -> g_c (g_base (snd e)) = 0)
  | CMeas _ _ _ => True
  | CProb visible _ _ => visible = true
  end.
Definition ordinary (c : circuit) : Prop :=
  forall i f, In (i, f) (combine (c_gates c) (c_conds c)) -> f = None ->
    match i with IGate g => mergeable g | IParam _ _ => True end.

(** Did optimize put a merged gate on the waiting list that has fewer operands than the gates it replaces, or a gate
    without operands? *)
Definition optimize_loses (vf : bool) (max_block : N) (c : circuit) : bool :=
  match o_loop vf max_block (required_n_qubits c) (c_gates c) (c_conds c) o_start with Ok st => o_lost st | _ => false end.
(** Two gates of these types may merge into a gate on fewer qubits. *)
Definition may_cancel (g : cgate) : bool :=
  match g with
  | CElem (true, EStd k _) =>
    match k with GX | GY | GZ | GS | GSdag | GT | GTdag | GSqrtX | GSqrtXdag | GSqrtY | GSqrtYdag => true | _ => false end
  | CElem (true, ESwap _) | CElem (true, EPauli _ _) => true
  | _ => false
  end.
Definition without_operands (g : cgate) : bool := operand_mask g =? 0.
(** No unconditional gate may cancel with another, and none but I and global phases is without operands. *)
Definition never_cancels (c : circuit) : Prop :=
  forall g, In (IGate g, None) (combine (c_gates c) (c_conds c)) -> may_cancel g = false /\
    (without_operands g = true -> match g with CElem (true, EI) | CElem (true, EGlobalPhase _ _) | CMeas _ _ _ | CProb _ _ _ => True | _ => False end).
(** No unconditional gate is a Permutation gate: merging those throws. *)
Definition no_permutations (c : circuit) : Prop :=
  forall e, In (IGate (CElem e), None) (combine (c_gates c) (c_conds c)) -> is_permutation e = false.

(** ** Block size
    The documentation: "merge neighboring gates if the new gate has less than or equal to max_block_size or the new
    gate is Pauli".  The block of two gates: the qubits either of them uses (as target or as control), without the
    controls which both have with the same value. *)
Definition uses (e : tgate) (q : N) : bool := N.testbit (g_t (g_base (snd e))) q || N.testbit (g_c (g_base (snd e))) q.
Definition shared_control (e1 e2 : tgate) (q : N) : bool :=
  N.testbit (g_c (g_base (snd e1))) q && N.testbit (g_c (g_base (snd e2))) q && Bool.eqb (N.testbit (g_cv (g_base (snd e1))) q) (N.testbit (g_cv (g_base (snd e2))) q).
Definition block_qubits (e1 e2 : tgate) : list N := filter (fun q => (uses e1 q || uses e2 q) && negb (shared_control e1 e2 q)) (seqN 64).
(** X, Y, Z or Pauli, as the type of the gate tells *)
Definition pauli_gate (e : tgate) : Prop := match e with (true, EStd GX _) | (true, EStd GY _) | (true, EStd GZ _) | (true, EPauli _ _) => True | _ => False end.
Definition paulis_alike (e1 e2 : tgate) : Prop :=
  pauli_gate e1 /\ pauli_gate e2 /\ g_c (g_base (snd e1)) = g_c (g_base (snd e2)) /\ g_cv (g_base (snd e1)) = g_cv (g_base (snd e2)).
(** neither I nor a global phase *)
Definition acts_on_qubits (e : tgate) : Prop := match e with (true, EI) | (true, EGlobalPhase _ _) => False | _ => True end.
Definition two_gates (e1 e2 : tgate) : circuit := Circuit [IGate (CElem e1); IGate (CElem e2)] [None; None].
