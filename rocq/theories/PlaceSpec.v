(** What "the same circuit on other qubits of a larger register" means. *)
From Verif Require Export CircuitSpec DensitySpec.

(** Qubit i of the small register is qubit qs[i] of the large one. *)
Definition spot (qs : list N) (q : N) : N := nth (N.to_nat q) qs 0.
Definition fits_into (n : N) (qs : list N) : Prop := NoDup qs /\ Forall (fun q => q < n) qs.

(** The amplitudes of the register when the qubits qs are in state psi and the other ones in state phi. *)
Definition placed (n : N) (qs : list N) (psi phi : state) : state :=
  fun x => (psi (gather qs x) * phi (gather (rest_of n qs) x))%C.
(** What the qubits qs look like when the other ones show what they show in x. *)
Definition slice (qs : list N) (chi : state) (x : N) : state := fun y => chi (scatter qs y x).

(** The same factory call with other qubits. *)
Definition move_pauli (qs : list N) (p : pauli) : pauli :=
  Pauli (p_coef p) (scatter qs (p_bf p) 0) (scatter qs (p_pf p) 0).
Definition move (qs : list N) (k : call) : call :=
  let m := map (spot qs) in
  match k with
  | CallI => CallI
  | CallGlobalPhase phase cs vs => CallGlobalPhase phase (m cs) vs
  | Call1 g t cs vs => Call1 g (spot qs t) (m cs) vs
  | CallCX c t => CallCX (spot qs c) (spot qs t)
  | CallCZ c t => CallCZ (spot qs c) (spot qs t)
  | CallCCX c1 c2 t => CallCCX (spot qs c1) (spot qs c2) (spot qs t)
  | CallSwap a b cs vs => CallSwap (spot qs a) (spot qs b) (m cs) vs
  | CallEcr a b cs vs => CallEcr (spot qs a) (spot qs b) (m cs) vs
  | CallPermutation dst => CallPermutation dst
  | CallPauli p cs vs => CallPauli (move_pauli qs p) (m cs) vs
  | CallPauliRotation p a cs vs => CallPauliRotation (move_pauli qs p) a (m cs) vs
  | CallDense ts M cs vs u => CallDense (m ts) M (m cs) vs u
  | CallSparse ts Sp cs vs => CallSparse (m ts) Sp (m cs) vs
  end.
(** A permutation gate acts on the first qubits of the register and on no others: it can only stay where it is. *)
Definition may_move (qs : list N) (k : call) : Prop :=
  Forall (fun q => q < N.of_nat (length qs)) (call_operands k) /\
  match k with CallPermutation dst => forall i, i < N.of_nat (length dst) -> spot qs i = i | _ => True end.
Definition pmove (qs : list N) (k : pcall) : pcall :=
  match k with
  | PCallRot r t pcoef cs vs => PCallRot r (spot qs t) pcoef (map (spot qs) cs) vs
  | PCallPauliRotation p pcoef cs vs => PCallPauliRotation (move_pauli qs p) pcoef (map (spot qs) cs) vs
  end.

(** Gate objects, and circuits, made by the same calls with other qubits. *)
Inductive moved_gate (qs : list N) : egate -> egate -> Prop :=
| moved_factory vf vf' k g g' : call_typed k -> may_move qs k -> make vf k = Ok g -> make vf' (move qs k) = Ok g' ->
    moved_gate qs g g'
| moved_inverse vf vf' k g g' h h' : call_typed k -> may_move qs k -> call_invertible k ->
    make vf k = Ok g -> make vf' (move qs k) = Ok g' -> get_inverse g = Ok h -> get_inverse g' = Ok h' ->
    moved_gate qs h h'.
Inductive moved_elem (qs : list N) : cgate -> cgate -> Prop :=
| moved_act t t' g g' : moved_gate qs g g' -> moved_elem qs (CElem (t, g)) (CElem (t', g'))
| moved_measure q bit reset g g' : q < N.of_nat (length qs) -> make_measurement q bit reset = Ok g ->
    make_measurement (spot qs q) bit reset = Ok g' -> moved_elem qs g g'
| moved_choice t t' dist gs gs' : Forall2 (moved_elem qs) gs gs' -> moved_elem qs (CProb t dist gs) (CProb t' dist gs').
Inductive moved_param (qs : list N) : cgate + pgate -> cgate + pgate -> Prop :=
| moved_fixed g g' : moved_elem qs g g' -> moved_param qs (inl g) (inl g')
| moved_pfactory vf vf' k g g' : pcall_typed k -> may_move qs (pcall_at k 0) -> make_param vf k = Ok g ->
    make_param vf' (pmove qs k) = Ok g' -> moved_param qs (inr g) (inr g')
| moved_pinverse vf vf' k g g' h h' : pcall_typed k -> may_move qs (pcall_at k 0) -> make_param vf k = Ok g ->
    make_param vf' (pmove qs k) = Ok g' -> p_inverse g = Ok h -> p_inverse g' = Ok h' -> moved_param qs (inr h) (inr h')
| moved_pchoice t t' dist gs gs' : Forall2 (moved_param qs) gs gs' ->
    moved_param qs (inr (PProb t dist gs)) (inr (PProb t' dist gs')).
Inductive moved_item (qs : list N) : citem -> citem -> Prop :=
| moved_igate g g' : moved_elem qs g g' -> moved_item qs (IGate g) (IGate g')
| moved_iparam key g g' : moved_param qs (inr g) (inr g') -> moved_item qs (IParam g key) (IParam g' key).
Definition moved_circuit (qs : list N) (c c' : circuit) : Prop :=
  Forall2 (moved_item qs) (c_gates c) (c_gates c') /\ c_conds c = c_conds c'.

(** The world with the large register is the world with the small one, with phi on the other qubits: amplitudes,
    classical register and random numbers still to come. *)
Definition world_placed (n : N) (qs : list N) (phi : state) (w w' : world) : Prop :=
  (forall x, x < 2 ^ n -> w_amp w' x = placed n qs (w_amp w) phi x) /\ w_reg w' = w_reg w /\
  forall k, w_rand w' k = w_rand w k.
(** Both return, or both throw, in such worlds. *)
Definition same_ending (n : N) (qs : list N) (phi : state) (o o' : houtcome world unit) : Prop :=
  match o, o' with
  | HDone _ w, HDone _ w' => world_placed n qs phi w w'
  | HThrown w, HThrown w' => world_placed n qs phi w w'
  | _, _ => False
  end.
