(** What each gate factory promises: operands, controls and the textbook matrix of a call.  Nothing here
    refers to masks, kernels or gate objects; only the datatype of calls is shared with the model. *)
From Verif Require Export Spec PauliSpec Gates.

(** ** Textbook matrices *)
Definition isq2 : C := RtoC (/ sqrt 2).
Definition std1_textbook (k : std1) : matrix :=
  match k with
  | GX => pauli1 1
  | GY => pauli1 2
  | GZ => pauli1 3
  | GH => mat2 isq2 isq2 isq2 (- isq2)%C
  | GS => mat2 C1 C0 C0 (Cexpi (PI / 2))
  | GSdag => mat2 C1 C0 C0 (Cexpi (- (PI / 2)))
  | GT => mat2 C1 C0 C0 (Cexpi (PI / 4))
  | GTdag => mat2 C1 C0 C0 (Cexpi (- (PI / 4)))
  (* e^{i pi/4} exp(-i pi/4 X) and e^{i pi/4} exp(-i pi/4 Y), and their adjoints *)
  | GSqrtX => fun i j => (Cexpi (PI / 4) * (isq2 * (mat_id i j - Ci * pauli1 1 i j)))%C
  | GSqrtXdag => fun i j => (Cexpi (- (PI / 4)) * (isq2 * (mat_id i j + Ci * pauli1 1 i j)))%C
  | GSqrtY => fun i j => (Cexpi (PI / 4) * (isq2 * (mat_id i j - Ci * pauli1 2 i j)))%C
  | GSqrtYdag => fun i j => (Cexpi (- (PI / 4)) * (isq2 * (mat_id i j + Ci * pauli1 2 i j)))%C
  | GP0 => fun i j => if (i =? 0) && (j =? 0) then C1 else C0
  | GP1 => fun i j => if (i =? 1) && (j =? 1) then C1 else C0
  (* exp(-i a/2 P) = cos(a/2) I - i sin(a/2) P *)
  | GRX a => fun i j => (RtoC (cos (a / 2)) * mat_id i j - Ci * RtoC (sin (a / 2)) * pauli1 1 i j)%C
  | GRY a => fun i j => (RtoC (cos (a / 2)) * mat_id i j - Ci * RtoC (sin (a / 2)) * pauli1 2 i j)%C
  | GRZ a => fun i j => (RtoC (cos (a / 2)) * mat_id i j - Ci * RtoC (sin (a / 2)) * pauli1 3 i j)%C
  | GU1 l => mat2 C1 C0 C0 (Cexpi l)
  | GU2 f l => mat2 isq2 (- (Cexpi l * isq2))%C (Cexpi f * isq2)%C (Cexpi (f + l) * isq2)%C
  | GU3 t f l => mat2 (RtoC (cos (t / 2))) (- (Cexpi l * RtoC (sin (t / 2))))%C
                      (Cexpi f * RtoC (sin (t / 2)))%C (Cexpi (f + l) * RtoC (cos (t / 2)))%C
  end.
(** |x y> -> |y x> *)
Definition swap_textbook : matrix := fun i j =>
  if Bool.eqb (N.testbit i 0) (N.testbit j 1) && Bool.eqb (N.testbit i 1) (N.testbit j 0) then C1 else C0.
(** [x] with the bits a and b exchanged *)
Definition exchange (x a b : N) : N := set_bit (set_bit x a (N.testbit x b)) b (N.testbit x a).
(** (I X - X Y) / sqrt 2, the right factor on the physical control (bit 0), the left one on the physical target *)
Definition ecr_textbook : matrix := fun i j =>
  (isq2 * (tensor [1; 0] i j - tensor [2; 1] i j))%C.
(** The qubit i is moved to position dst[i]: |x> -> |y> with bit dst[i] of y equal to bit i of x. *)
Definition permutation_textbook (dst : list N) : matrix := fun y x =>
  if forallb (fun id => Bool.eqb (N.testbit y (snd id)) (N.testbit x (fst id)))
             (combine (seqN (N.of_nat (length dst))) dst) then C1 else C0.
Definition pauli_textbook (bf pf : N) (ts : list N) : matrix := tensor (map (pauli_id_of bf pf) ts).
(** exp(-i h P) = cos h I - i sin h P for a complex number h *)
Definition pauli_rotation_textbook (h : C) (P : matrix) : matrix := fun i j =>
  (Ccos h * mat_id i j - Ci * Csin h * P i j)%C.

(** ** Meaning of a call *)

(** Bit k of a matrix index belongs to the k-th listed target. *)
Definition call_targets (k : call) : list N :=
  match k with
  | CallI | CallGlobalPhase _ _ _ => []
  | Call1 _ t _ _ | CallCX _ t | CallCZ _ t | CallCCX _ _ t => [t]
  | CallSwap a b _ _ | CallEcr a b _ _ => [a; b]
  | CallPermutation dst => seqN (N.of_nat (length dst))
  | CallPauli p _ _ | CallPauliRotation p _ _ _ => bits (N.lor (p_bf p) (p_pf p))
  | CallDense ts _ _ _ _ | CallSparse ts _ _ _ => ts
  end.
(** Controls with the value at which they are active; no values given means all ones. *)
Definition with_values (cs vs : list N) : list (N * bool) :=
  combine cs (map (fun v => v =? 1) (match vs with [] => repeat 1 (length cs) | _ => vs end)).
Definition call_controls (k : call) : list (N * bool) :=
  match k with
  | CallI | CallPermutation _ => []
  | CallGlobalPhase _ cs vs | Call1 _ _ cs vs | CallSwap _ _ cs vs | CallEcr _ _ cs vs
  | CallPauli _ cs vs | CallPauliRotation _ _ cs vs | CallDense _ _ cs vs _ | CallSparse _ _ cs vs =>
    with_values cs vs
  | CallCX c _ | CallCZ c _ => [(c, true)]
  | CallCCX c1 c2 _ => [(c1, true); (c2, true)]
  end.
(** The entry of a stored sparse matrix: the sum over the stored elements of that cell. *)
Definition csr_sum (S : csr) : matrix := fun r col =>
  Csuml (fun e => if fst e =? col then snd e else C0) (csr_entries S r).
Definition call_matrix (k : call) : matrix :=
  match k with
  | CallI => fun _ _ => C1
  | CallGlobalPhase phase _ _ => fun _ _ => Cexpi phase
  | Call1 k _ _ _ => std1_textbook k
  | CallCX _ _ | CallCCX _ _ _ => pauli1 1
  | CallCZ _ _ => pauli1 3
  | CallSwap _ _ _ _ => swap_textbook
  | CallEcr _ _ _ _ => ecr_textbook
  | CallPermutation dst => permutation_textbook dst
  | CallPauli p _ _ =>
    fun i j => (p_coef p * pauli_textbook (p_bf p) (p_pf p) (bits (N.lor (p_bf p) (p_pf p))) i j)%C
  | CallPauliRotation p a _ _ =>
    pauli_rotation_textbook (Cscale (a / 2)%R (p_coef p))
      (pauli_textbook (p_bf p) (p_pf p) (bits (N.lor (p_bf p) (p_pf p))))
  | CallDense _ M _ _ _ => m_at M
  | CallSparse _ Sp _ _ => csr_sum Sp
  end.

(** ** Valid arguments *)
Definition valid_controls (ts cs vs : list N) : Prop :=
  NoDup (ts ++ cs) /\ Forall (fun q => q < 64) (ts ++ cs) /\
  (vs = [] \/ length vs = length cs) /\ Forall (fun v => v = 0 \/ v = 1) vs.
Definition call_valid (k : call) : Prop :=
  match k with
  | CallI => True
  | CallGlobalPhase _ cs vs => valid_controls [] cs vs
  | Call1 _ t cs vs => valid_controls [t] cs vs
  | CallCX c t | CallCZ c t => valid_controls [t] [c] []
  | CallCCX c1 c2 t => valid_controls [t] [c1; c2] []
  | CallSwap a b cs vs | CallEcr a b cs vs => valid_controls [a; b] cs vs
  | CallPermutation dst =>
    (length dst < 64)%nat /\ NoDup dst /\ Forall (fun q => q < N.of_nat (length dst)) dst
  | CallPauli p cs vs | CallPauliRotation p _ cs vs =>
    valid_controls (bits (N.lor (p_bf p) (p_pf p))) cs vs
  | CallDense ts M cs vs _ =>
    valid_controls ts cs vs /\ (length ts < 64)%nat /\ m_rows M = 2 ^ N.of_nat (length ts) /\ m_cols M = 2 ^ N.of_nat (length ts)
  | CallSparse ts Sp cs vs =>
    valid_controls ts cs vs /\ (length ts < 64)%nat /\ csr_rows Sp = 2 ^ N.of_nat (length ts)
  end.
(** A sparse matrix as Eigen stores it in compressed form: square here, columns in range, no cell stored twice. *)
Definition csr_ok (S : csr) : Prop := forall r, r < csr_rows S ->
  NoDup (map fst (csr_entries S r)) /\ Forall (fun e => fst e < csr_rows S) (csr_entries S r).

(** Data the C++ types guarantee about the arguments of a call: 64-bit masks, well-formed sparse storage of the right size. *)
Definition call_typed (k : call) : Prop :=
  match k with
  | CallPauli p _ _ | CallPauliRotation p _ _ _ => p_bf p < two64 /\ p_pf p < two64
  | CallSparse ts Sp _ _ => csr_ok Sp /\ csr_rows Sp = 2 ^ N.of_nat (length ts)
  | _ => True
  end.

(** ** Running an update *)

(** All qubits a call names. *)
Definition call_operands (k : call) : list N := call_targets k ++ map fst (call_controls k).
(** SIMD lane counts: none, or a power of two. *)
Definition lanes_ok (L : N) : Prop := L = 0 \/ exists l, l < 64 /\ L = 2 ^ l.
(** Element [b] of a batch. *)
Definition batch (n b : N) (psi : state) : state := fun i => psi (b * 2 ^ n + i).
(** [g.update_quantum_state] on B states of n qubits, stored one after the other: it does not throw, and under
    every schedule turns [psi] into [psi'] without out-of-bounds access or data race. *)
Definition updating (n B L : N) (g : egate) (psi psi' : state) : Prop :=
  exists p, update_plan n (B * 2 ^ n) L g = Ok p /\ updates_to (B * 2 ^ n) p psi psi'.
(** [psi'] is a possible result of the update. *)
Definition result (n B L : N) (g : egate) (psi psi' : state) : Prop :=
  exists p junk scheds, update_plan n (B * 2 ^ n) L g = Ok p /\ run_plan (B * 2 ^ n) p junk scheds psi = Finished psi'.
(** Sizes for which the library can hold the states: fewer than 64 qubits, at most 2^64 amplitudes. *)
Definition sizes_ok (n B L : N) : Prop := n < 64 /\ B * 2 ^ n <= 2 ^ 64 /\ lanes_ok L.

(** ** Side conditions of particular properties *)
(** Data guaranteed by the C++ types, without any relation between the arguments. *)
Definition call_data (k : call) : Prop :=
  match k with
  | CallPauli p _ _ | CallPauliRotation p _ _ _ => p_bf p < two64 /\ p_pf p < two64
  | _ => True
  end.
(** Every factory but SparseMatrix compares the size of the matrix with the number of targets. *)
Definition size_checked (k : call) : Prop := match k with CallSparse _ _ _ _ => False | _ => True end.
Definition call_control_list (k : call) : list N :=
  match k with
  | CallI | CallPermutation _ => []
  | CallGlobalPhase _ cs _ | Call1 _ _ cs _ | CallSwap _ _ cs _ | CallEcr _ _ cs _
  | CallPauli _ cs _ | CallPauliRotation _ _ cs _ | CallDense _ _ cs _ _ | CallSparse _ _ cs _ => cs
  | CallCX c _ | CallCZ c _ => [c]
  | CallCCX c1 c2 _ => [c1; c2]
  end.
(** A DenseMatrix call with 64 or more targets shifts by 64 or more, which is undefined. *)
Definition few_targets (k : call) : Prop :=
  match k with CallDense ts _ _ _ _ => (length ts < 64)%nat | _ => True end.
(** Controls of 64 and more with value 1 are undefined if the values are converted before the indices are checked. *)
Definition order_ok (vf : bool) (cs : list N) : Prop := vf = false \/ Forall (fun q => q < 64) cs.
(** The updates of Pauli and PauliRotation do not check that they fit the state. *)
Definition call_checked (k : call) : Prop :=
  match k with CallPauli _ _ _ | CallPauliRotation _ _ _ _ => False | _ => True end.
(** Conditions under which get_inverse is an inverse. *)
Definition call_invertible (k : call) : Prop :=
  match k with
  | CallPauli p _ _ => (p_coef p * p_coef p = C1)%C
  | CallDense ts M _ _ _ => unitary (2 ^ N.of_nat (length ts)) (m_at M)
  | _ => True
  end.
(** Gates for which get_inverse does not throw. *)
Definition has_inverse (k : call) : bool :=
  match k with
  | Call1 GP0 _ _ _ | Call1 GP1 _ _ _ | CallSparse _ _ _ _ | CallDense _ _ _ _ false => false
  | _ => true
  end.
(** Gates whose matrix is unitary. *)
Definition call_unitary (k : call) : Prop :=
  match k with
  | Call1 GP0 _ _ _ | Call1 GP1 _ _ _ => False
  | CallPauli p _ _ => (Cconj (p_coef p) * p_coef p = C1)%C
  | CallPauliRotation p _ _ _ => snd (p_coef p) = 0%R
  | CallDense ts M _ _ _ => unitary (2 ^ N.of_nat (length ts)) (m_at M)
  | CallSparse ts Sp _ _ => unitary (2 ^ N.of_nat (length ts)) (csr_sum Sp)
  | _ => True
  end.
