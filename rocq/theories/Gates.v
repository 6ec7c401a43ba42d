(** Gate objects: include/scaluq/gate/gate.hpp, gate_standard.hpp, gate_matrix.hpp, gate_pauli.hpp,
    gate_factory.hpp and the corresponding files in src/gate.  Floating point numbers are exact reals. *)
From Verif Require Export Kernels Pauli.

(** * Running the loops of one update *)

(** The loops run one after the other, each under its own schedule. *)
Fixpoint run_kernels {A} (eqb : A -> A -> bool) (valid : A -> bool) (ks : list (kernel A)) (scheds : list (list N))
    (m : A -> C) : outcome C A :=
  match ks with
  | [] => Finished m
  | k :: r =>
    match scheds with
    | [] => Unfinished
    | s :: ss =>
      match parallel_for eqb valid (k_iters k) (k_body k) m s with
      | Finished m' => run_kernels eqb valid r ss m'
      | o => o
      end
    end
  end.

(** What update_quantum_state does to the amplitudes: either loops over the state itself, or loops that read
    the state and fill a freshly allocated buffer which then replaces the state
    (update_ops_matrix.cpp:121-160, 296-330: std::swap(state._raw, update._raw)). *)
Inductive plan : Type :=
| InPlace (ks : list (kernel N))
| Buffered (ks : list (kernel addr2)).

(** D is the number of amplitudes (all batches together); [junk] is the uninitialised content of the buffer. *)
Definition run_plan (D : N) (p : plan) (junk : N -> C) (scheds : list (list N)) (psi : state) : outcome C N :=
  match p with
  | InPlace ks => run_kernels N.eqb (fun a => a <? D) ks scheds psi
  | Buffered ks =>
    match run_kernels addr2_eqb (fun a => snd a <? D) ks scheds
            (fun a => if fst a then junk (snd a) else psi (snd a)) with
    | Finished m => Finished (fun a => if a <? D then m (true, a) else psi a)
    | Unfinished => Unfinished
    | OutOfBounds => OutOfBounds
    | DataRace => DataRace
    end
  end.

(** The update is safe and deterministic: no schedule and no buffer content leads to an out-of-bounds access
    or a data race, every run that completes leaves amplitude [psi' a] at each index below D, and some run
    completes. *)
Definition updates_to (D : N) (p : plan) (psi psi' : state) : Prop :=
  (forall junk scheds, match run_plan D p junk scheds psi with
                       | Finished r => forall a, a < D -> r a = psi' a
                       | Unfinished => True
                       | OutOfBounds => False
                       | DataRace => False
                       end) /\
  (forall junk, exists scheds r, run_plan D p junk scheds psi = Finished r).

(** * Gate objects *)

(** gate.hpp: _target_mask, _control_mask, _control_value_mask *)
Record base : Type := GBase { g_t : N; g_c : N; g_cv : N }.
(** gate.cpp:120-133 GateBase constructor *)
Definition make_base (t c cv : N) : res base := if N.land t c =? 0 then Ok (GBase t c cv) else Throw.

(** The one-target gate classes of gate_standard.hpp with their parameters. *)
Inductive std1 : Type :=
| GX | GY | GZ | GH | GS | GSdag | GT | GTdag | GSqrtX | GSqrtXdag | GSqrtY | GSqrtYdag | GP0 | GP1
| GRX (angle : R) | GRY (angle : R) | GRZ (angle : R)
| GU1 (lambda : R) | GU2 (phi lambda : R) | GU3 (theta phi lambda : R).

(** Eigen matrices: a size and the entries *)
Record dmat : Type := DMat { m_rows : N; m_cols : N; m_at : matrix }.

(** Non-random gates.  Measurement and Probabilistic are in Circuit.v. *)
Inductive egate : Type :=
| EI
| EGlobalPhase (b : base) (phase : R)
| EStd (k : std1) (b : base)
| ESwap (b : base)
| EEcr (b : base) (physical_control_mask physical_target_mask : N)
| EPermutation (b : base) (dst : list N) (swap_schedule : list (N * N))
| EPauli (b : base) (p : pauli)
| EPauliRotation (b : base) (p : pauli) (angle : R)
| EDense (b : base) (M : dmat) (is_unitary : bool)
| ESparse (b : base) (S : csr).

Definition g_base (g : egate) : base :=
  match g with
  | EI => GBase 0 0 0
  | EGlobalPhase b _ | EStd _ b | ESwap b | EEcr b _ _ | EPermutation b _ _ | EPauli b _
  | EPauliRotation b _ _ | EDense b _ _ | ESparse b _ => b
  end.
(** gate.hpp target_qubit_list, control_qubit_list, control_value_list *)
Definition gate_target_list (g : egate) : list N := mask_to_vector (g_t (g_base g)).
Definition gate_control_list (g : egate) : list N := mask_to_vector (g_c (g_base g)).
Definition gate_control_values (g : egate) : list N := mask_to_values (g_c (g_base g)) (g_cv (g_base g)).

(** * update_quantum_state *)

(** update_ops_standard.cpp:6-20 get_IBMQ_matrix *)
Definition get_IBMQ_matrix (theta phi lambda : R) : matrix :=
  let exp_val1 := Cexpi phi in
  let exp_val2 := Cexpi lambda in
  let cos_val := RtoC (cos (theta / 2)) in
  let sin_val := RtoC (sin (theta / 2)) in
  mat2 cos_val (- exp_val2 * sin_val)%C (exp_val1 * sin_val)%C (exp_val1 * exp_val2 * cos_val)%C.

(** constant.hpp:67-110 *)
Definition HADAMARD_MATRIX : matrix :=
  let s := RtoC INVERSE_SQRT2 in mat2 s s s (- s)%C.
Definition half (a b : R) : C := (a / 2, b / 2)%R.
Definition SQRT_X_GATE_MATRIX : matrix := mat2 (half 1 1) (half 1 (-1)) (half 1 (-1)) (half 1 1).
Definition SQRT_Y_GATE_MATRIX : matrix := mat2 (half 1 1) (half (-1) (-1)) (half 1 1) (half 1 1).
Definition SQRT_X_DAG_GATE_MATRIX : matrix := mat2 (half 1 (-1)) (half 1 1) (half 1 1) (half 1 (-1)).
Definition SQRT_Y_DAG_GATE_MATRIX : matrix := mat2 (half 1 (-1)) (half 1 (-1)) (half (-1) 1) (half 1 (-1)).
Definition PROJ_0_MATRIX : matrix := mat2 C1 C0 C0 C0.
Definition PROJ_1_MATRIX : matrix := mat2 C0 C0 C0 C1.

Section Update.
  Variables n D L : N.   (* qubits, amplitudes, SIMD lanes (0: no SIMD) *)

  (** update_ops.hpp:72-260 and update_ops_standard.cpp:70-245 (the non-batched-parameter overloads) *)
  Definition std1_kernel (k : std1) (t c cv : N) : kernel N :=
    match k with
    | GX => x_gate D t c cv
    | GY => y_gate D t c cv
    | GZ => one_target_phase_gate D t c cv (- C1)%C
    | GH => one_target_dense_matrix_gate n D L t c cv HADAMARD_MATRIX
    | GS => one_target_phase_gate D t c cv Ci
    | GSdag => one_target_phase_gate D t c cv (- Ci)%C
    | GT => one_target_phase_gate D t c cv (INVERSE_SQRT2, INVERSE_SQRT2)
    | GTdag => one_target_phase_gate D t c cv (INVERSE_SQRT2, - INVERSE_SQRT2)%R
    | GSqrtX => one_target_dense_matrix_gate n D L t c cv SQRT_X_GATE_MATRIX
    | GSqrtXdag => one_target_dense_matrix_gate n D L t c cv SQRT_X_DAG_GATE_MATRIX
    | GSqrtY => one_target_dense_matrix_gate n D L t c cv SQRT_Y_GATE_MATRIX
    | GSqrtYdag => one_target_dense_matrix_gate n D L t c cv SQRT_Y_DAG_GATE_MATRIX
    | GP0 => one_target_dense_matrix_gate n D L t c cv PROJ_0_MATRIX
    | GP1 => one_target_dense_matrix_gate n D L t c cv PROJ_1_MATRIX
    | GRX angle =>
      let cosval := cos (angle / 2) in
      let sinval := sin (angle / 2) in
      one_target_dense_matrix_gate n D L t c cv
        (mat2 (RtoC cosval) (0, - sinval)%R (0, - sinval)%R (RtoC cosval))
    | GRY angle =>
      let cosval := cos (angle / 2) in
      let sinval := sin (angle / 2) in
      one_target_dense_matrix_gate n D L t c cv
        (mat2 (RtoC cosval) (RtoC (- sinval)) (RtoC sinval) (RtoC cosval))
    | GRZ angle =>
      let cosval := cos (angle / 2) in
      let sinval := sin (angle / 2) in
      one_target_diagonal_matrix_gate D t c cv (cosval, - sinval)%R (cosval, sinval)
    | GU1 lambda => one_target_phase_gate D t c cv (Cexpi lambda)
    | GU2 phi lambda => one_target_dense_matrix_gate n D L t c cv (get_IBMQ_matrix (PI / 2) phi lambda)
    | GU3 theta phi lambda => one_target_dense_matrix_gate n D L t c cv (get_IBMQ_matrix theta phi lambda)
    end.

  (** gate.cpp:5-97 check_qubit_mask_within_bounds: false means that the call throws.  (1ULL << n needs n < 64) *)
  Definition within_bounds (b : base) : bool :=
    N.lor (g_t b) (g_c b) <=? sub64 (shl64 1 n) 1.

  (** update_quantum_state of each class: gate_standard.cpp (DEFINE_*_GATE_UPDATE), gate_matrix.cpp:100-140,
      200-230, gate_pauli.cpp:18-37, 62-83.  IGate, PauliGate and PauliRotationGate do not call
      check_qubit_mask_within_bounds.  The throw for a gate built for another execution space is not modelled. *)
  Definition update_plan (g : egate) : res plan :=
    let checked (p : plan) : res plan := if within_bounds (g_base g) then Ok p else Throw in
    let t := g_t (g_base g) in
    let c := g_c (g_base g) in
    let cv := g_cv (g_base g) in
    match g with
    | EI => Ok (InPlace [])
    | EGlobalPhase _ phase => checked (InPlace [zero_target_dense_matrix_gate n D L c cv (Cexpi phase)])
    | EStd k _ => checked (InPlace [std1_kernel k t c cv])
    | ESwap _ => checked (InPlace [swap_gate D t c cv])
    | EEcr _ pc pt => checked (InPlace [ecr_gate D pt pc c cv])
    | EPermutation _ _ sched => checked (InPlace (permutation_gate D sched))
    | EPauli _ p => Ok (InPlace [apply_pauli D c cv (p_bf p) (p_pf p) (p_coef p)])
    | EPauliRotation _ p angle => Ok (InPlace [apply_pauli_rotation D c cv (p_bf p) (p_pf p) (p_coef p) angle])
    | EDense _ M _ =>
      checked (if (m_rows M =? 1) && (m_cols M =? 1) then InPlace [zero_target_dense_matrix_gate n D L c cv (m_at M 0 0)]
               else if (m_rows M =? 2) && (m_cols M =? 2) then InPlace [one_target_dense_matrix_gate n D L t c cv (m_at M)]
               else if (m_rows M =? 4) && (m_cols M =? 4) then InPlace [two_target_dense_matrix_gate D t c cv (m_at M)]
               else Buffered [multi_init D c cv; multi_update n D t c cv (m_at M)])
    | ESparse _ Sp => checked (Buffered [multi_init D c cv; sparse_update n D t c cv Sp])
    end.
End Update.

(** * get_matrix *)

(** gate_standard.cpp:111-1200 get_matrix of the one-target classes *)
Definition std1_matrix (k : std1) : matrix :=
  match k with
  | GX => mat2 C0 C1 C1 C0
  | GY => mat2 C0 (- Ci)%C Ci C0
  | GZ => mat2 C1 C0 C0 (- C1)%C
  | GH => fun i j => Cscale (/ sqrt 2)%R (mat2 C1 C1 C1 (- C1)%C i j)
  | GS => mat2 C1 C0 C0 Ci
  | GSdag => mat2 C1 C0 C0 (- Ci)%C
  | GT => mat2 C1 C0 C0 (Cscale (/ sqrt 2) (1, 1))%R
  | GTdag => mat2 C1 C0 C0 (Cscale (/ sqrt 2) (1, -1))%R
  | GSqrtX => mat2 (half 1 1) (half 1 (-1)) (half 1 (-1)) (half 1 1)
  | GSqrtXdag => mat2 (half 1 (-1)) (half 1 1) (half 1 1) (half 1 (-1))
  | GSqrtY => mat2 (half 1 1) (half (-1) (-1)) (half 1 1) (half 1 1)
  | GSqrtYdag => mat2 (half 1 (-1)) (half 1 (-1)) (half (-1) 1) (half 1 (-1))
  | GP0 => mat2 C1 C0 C0 C0
  | GP1 => mat2 C0 C0 C0 C1
  | GRX angle =>
    let h := (angle / 2)%R in mat2 (RtoC (cos h)) (0, - sin h)%R (0, - sin h)%R (RtoC (cos h))
  | GRY angle =>
    let h := (angle / 2)%R in mat2 (RtoC (cos h)) (RtoC (- sin h)) (RtoC (sin h)) (RtoC (cos h))
  | GRZ angle => let h := (angle / 2)%R in mat2 (Cexpi (- h)) C0 C0 (Cexpi h)
  | GU1 lambda => mat2 C1 C0 C0 (Cexpi lambda)
  | GU2 phi lambda =>
    mat2 (RtoC (cos (PI / 4))) (- Cexpi lambda * RtoC (sin (PI / 4)))%C
         (Cexpi phi * RtoC (sin (PI / 4)))%C (Cexpi phi * Cexpi lambda * RtoC (cos (PI / 4)))%C
  | GU3 theta phi lambda =>
    mat2 (RtoC (cos (theta / 2))) (- Cexpi lambda * RtoC (sin (theta / 2)))%C
         (Cexpi phi * RtoC (sin (theta / 2)))%C (Cexpi phi * Cexpi lambda * RtoC (cos (theta / 2)))%C
  end.

(** A 4x4 matrix from its rows (Eigen comma initialiser) *)
Definition mat4 (l : list C) : matrix := fun i j => nth (N.to_nat (4 * i + j)) l C0.

(** gate_standard.cpp:1380-1392 PermutationGateImpl::get_matrix.  1ULL << _dst[qubit] needs _dst[qubit] < 64,
    which the constructor guarantees. *)
Definition perm_dst_index (dst : list N) (src : N) : N :=
  fold_left (fun acc qd => N.lor acc (shl64 (N.land (N.shiftr src (fst qd)) 1) (snd qd)))
            (combine (seqN (N.of_nat (length dst))) dst) 0.
Definition perm_matrix (dst : list N) : matrix :=
  fold_left (fun M src => fun i j => if (i =? perm_dst_index dst src) && (j =? src) then C1 else M i j)
            (seqN (shl64 1 (N.of_nat (length dst)))) (fun _ _ => C0).

(** utility.cpp:70-81 convert_csr_to_external_matrix: of several stored entries for one cell the last wins. *)
Definition csr_entries (S : csr) (r : N) : list (N * C) :=
  let lo := nth (N.to_nat r) (csr_row_ptr S) 0 in
  let hi := nth (N.to_nat (r + 1)) (csr_row_ptr S) 0 in
  map (fun k => (nth (N.to_nat (lo + k)) (csr_col_idx S) 0, nth (N.to_nat (lo + k)) (csr_vals S) C0)) (seqN (hi - lo)).
Definition csr_to_dense (S : csr) : matrix := fun i j =>
  fold_left (fun v e => if fst e =? j then snd e else v) (csr_entries S i) C0.

(** get_matrix of every class: gate_standard.cpp:7, 55, 1231, 1286, 1380; gate_matrix.cpp:77-99, 187;
    gate_pauli.hpp:34, gate_pauli.cpp:40-49 *)
Definition get_matrix (g : egate) : dmat :=
  match g with
  | EI => DMat 1 1 mat_id
  | EGlobalPhase _ phase => DMat 1 1 (fun i j => (mat_id i j * Cexpi phase)%C)
  | EStd k _ => DMat 2 2 (std1_matrix k)
  | ESwap _ => DMat 4 4 (mat4 [C1; C0; C0; C0; C0; C0; C1; C0; C0; C1; C0; C0; C0; C0; C0; C1])
  | EEcr _ pc pt =>
    DMat 4 4
      (if pc <? pt then
         fun i j => Cscale (/ sqrt 2)%R
           (mat4 [C0; C1; C0; Ci; C1; C0; (- Ci)%C; C0; C0; Ci; C0; C1; (- Ci)%C; C0; C1; C0] i j)
       else if pt <? pc then
         fun i j => Cscale (/ sqrt 2)%R
           (mat4 [C0; C0; C1; Ci; C0; C0; Ci; C1; C1; (- Ci)%C; C0; C0; (- Ci)%C; C1; C0; C0] i j)
       else mat_id)
  | EPermutation _ dst _ =>
    let dim := shl64 1 (N.of_nat (length dst)) in DMat dim dim (perm_matrix dst)
  | EPauli _ p => let d := 2 ^ N.of_nat (length (pauli_target_list p)) in DMat d d (pauli_get_matrix p)
  | EPauliRotation _ p angle =>
    let d := 2 ^ N.of_nat (length (pauli_target_list p)) in
    let half_angle := Cscale (/ 2)%R (Cscale angle (p_coef p)) in
    DMat d d (fun i j => (Ccos (- half_angle) * mat_id i j
                          + Ci * Csin (- half_angle) * pauli_get_matrix_ignoring_coef p i j)%C)
  | EDense _ M _ => M
  | ESparse _ Sp => DMat (csr_rows Sp) (csr_rows Sp) (csr_to_dense Sp)
  end.

(** * Constructors and get_inverse *)

(** gate_standard.hpp:1187-1196 the swap schedule.  [seen] is the list of positions marked so far. *)
Definition memN (x : N) (l : list N) : bool := existsb (N.eqb x) l.
Definition dst_at (dst : list N) (i : N) : N := nth (N.to_nat i) dst 0.
Fixpoint perm_cycle (fuel : nat) (dst : list N) (i pos : N) (seen : list N) (sched : list (N * N))
    : list N * list (N * N) :=
  match fuel with
  | O => (seen, sched)   (* not reached: every round marks a new position *)
  | S f =>
    let pos := dst_at dst pos in
    if memN pos seen then (seen, sched)
    else perm_cycle f dst i pos (pos :: seen) (sched ++ [(pos, i)])
  end.
Fixpoint perm_cycles (dst : list N) (is : list N) (seen : list N) (sched : list (N * N)) : list (N * N) :=
  match is with
  | [] => sched
  | i :: r =>
    if memN i seen then perm_cycles dst r seen sched
    else
      let '(seen, sched) := perm_cycle (S (length dst)) dst i i (i :: seen) sched in
      perm_cycles dst r seen sched
  end.
Definition perm_schedule (dst : list N) : list (N * N) :=
  perm_cycles dst (seqN (N.of_nat (length dst))) [] [].

(** gate_standard.hpp:1179-1197 PermutationGateImpl constructor (1ULL << _dst.size() is undefined from 64 on) *)
Definition make_permutation_impl (dst : list N) : res egate :=
  t <- vector_to_mask dst ;;
  if 64 <=? N.of_nat (length dst) then UB
  else if negb (t =? sub64 (shl64 1 (N.of_nat (length dst))) 1) then Throw
  else
    b <- make_base t 0 0 ;;
    Ok (EPermutation b dst (perm_schedule dst)).

(** gate_pauli.hpp:17-24, 63-71: the target mask comes from the Pauli operator *)
Definition make_pauli_base (p : pauli) (c cv : N) : res base :=
  t <- vector_to_mask_novalidate (pauli_target_list p) ;; make_base t c cv.

(** gate_standard.hpp get_inverse of the one-target classes *)
Definition std1_inverse (k : std1) : res std1 :=
  match k with
  | GX => Ok GX | GY => Ok GY | GZ => Ok GZ | GH => Ok GH
  | GS => Ok GSdag | GSdag => Ok GS | GT => Ok GTdag | GTdag => Ok GT
  | GSqrtX => Ok GSqrtXdag | GSqrtXdag => Ok GSqrtX | GSqrtY => Ok GSqrtYdag | GSqrtYdag => Ok GSqrtY
  | GP0 => Throw | GP1 => Throw
  | GRX a => Ok (GRX (- a)) | GRY a => Ok (GRY (- a)) | GRZ a => Ok (GRZ (- a))
  | GU1 l => Ok (GU1 (- l))
  | GU2 phi lambda => Ok (GU2 (- lambda - PI) (- phi + PI))%R
  | GU3 theta phi lambda => Ok (GU3 (- theta) (- lambda) (- phi))%R
  end.

(** gate_standard.cpp:1394-1400: inv[_dst[i]] = i *)
Fixpoint set_nth {T} (k : nat) (v : T) (l : list T) : list T :=
  match l, k with
  | [], _ => []
  | x :: r, O => v :: r
  | x :: r, S k => x :: set_nth k v r
  end.
Definition perm_inverse (dst : list N) : list N :=
  fold_left (fun inv qd => set_nth (N.to_nat (snd qd)) (fst qd) inv)
            (combine (seqN (N.of_nat (length dst))) dst) (repeat 0 (length dst)).

(** get_inverse of every class *)
Definition get_inverse (g : egate) : res egate :=
  match g with
  | EI => Ok EI
  | EGlobalPhase b phase => b <- make_base (g_t b) (g_c b) (g_cv b) ;; Ok (EGlobalPhase b (- phase))
  | EStd k b => k' <- std1_inverse k ;; b <- make_base (g_t b) (g_c b) (g_cv b) ;; Ok (EStd k' b)
  | ESwap b => Ok (ESwap b)
  | EEcr b pc pt => Ok (EEcr b pc pt)
  | EPermutation _ dst _ => make_permutation_impl (perm_inverse dst)
  | EPauli b p => Ok (EPauli b p)
  | EPauliRotation b p angle =>
    b <- make_pauli_base p (g_c b) (g_cv b) ;; Ok (EPauliRotation b p (- angle))
  | EDense b M true =>
    b <- make_base (g_t b) (g_c b) (g_cv b) ;;
    Ok (EDense b (DMat (m_cols M) (m_rows M) (mat_adj (m_at M))) true)
  | EDense _ _ false => Throw
  | ESparse _ _ => Throw
  end.

(** * Factories *)

(** A call of one of the functions in gate_factory.hpp with the user's arguments. *)
Inductive call : Type :=
| CallI
| CallGlobalPhase (phase : R) (controls control_values : list N)
| Call1 (k : std1) (target : N) (controls control_values : list N)
| CallCX (control target : N)
| CallCZ (control target : N)
| CallCCX (control1 control2 target : N)
| CallSwap (target1 target2 : N) (controls control_values : list N)
| CallEcr (physical_control physical_target : N) (controls control_values : list N)
| CallPermutation (dst : list N)
| CallPauli (p : pauli) (controls control_values : list N)
| CallPauliRotation (p : pauli) (angle : R) (controls control_values : list N)
| CallDense (targets : list N) (M : dmat) (controls control_values : list N) (is_unitary : bool)
| CallSparse (targets : list N) (S : csr) (controls control_values : list N).

(** utility.hpp:188-220 transform_dense_matrix_by_order *)
Fixpoint insert_sorted (x : N) (l : list N) : list N :=
  match l with [] => [x] | y :: r => if x <=? y then x :: y :: r else y :: insert_sorted x r end.
Definition sortN (l : list N) : list N := fold_right insert_sorted [] l.   (* std::sort *)
Fixpoint lower_bound (l : list N) (x : N) : N :=
  match l with [] => 0 | y :: r => if y <? x then 1 + lower_bound r x else 0 end.
Definition transformed_index (targets : list N) (index : N) : N :=
  fold_left (fun acc jo => N.lor acc (shl64 (N.land (N.shiftr index (snd jo)) 1) (fst jo)))
            (combine (seqN (N.of_nat (length targets))) (map (lower_bound (sortN targets)) targets)) 0.
Definition transform_dense_matrix_by_order (M : dmat) (targets : list N) : dmat :=
  DMat (m_rows M) (m_rows M) (fun i j => m_at M (transformed_index targets i) (transformed_index targets j)).
Fixpoint is_sorted (l : list N) : bool :=
  match l with
  | [] => true
  | x :: r => match r with [] => true | y :: _ => (x <=? y) && is_sorted r end
  end.

(** Eigen sparseView: the entries of each row that are not exactly zero (|v|^2 <= |0|^2 * eps^2), in order. *)
Definition nz (v : C) : bool := if Req_EM_T (fst v) 0 then (if Req_EM_T (snd v) 0 then false else true) else true.
Definition sparse_view (M : dmat) : csr :=
  let row r := filter (fun jv => nz (snd jv)) (map (fun j => (j, m_at M r j)) (seqN (m_cols M))) in
  let rows := map row (seqN (m_rows M)) in
  Csr (m_rows M)
      (fold_left (fun ptr r => ptr ++ [last ptr 0 + N.of_nat (length r)]) rows [0])
      (map fst (concat rows)) (map snd (concat rows)).

(** The three mask arguments of create_gate.  C++ leaves the order in which arguments are evaluated open, and
    only vector_to_mask(controls, control_values) can be undefined where the others throw, so it matters
    whether it is evaluated before ([values_first]) or after them; every other order gives one of these two
    results. *)
Definition mask_args (values_first : bool) (t : res N) (controls values : list N) : res (N * N * N) :=
  if values_first then
    cv <- vector_to_mask_values controls values ;;
    c <- vector_to_mask controls ;;
    t <- t ;; Ok (t, c, cv)
  else
    t <- t ;;
    c <- vector_to_mask controls ;;
    cv <- vector_to_mask_values controls values ;; Ok (t, c, cv).

Definition create (values_first : bool) (t : res N) (controls values : list N) (k : base -> egate) : res egate :=
  m <- mask_args values_first t controls values ;;
  let '(t, c, cv) := m in
  b <- make_base t c cv ;; Ok (k b).

(** gate_factory.hpp:24-411 *)
Definition make (vf : bool) (k : call) : res egate :=
  match k with
  | CallI => Ok EI
  | CallGlobalPhase phase cs vs =>
    vs <- resize_and_check_control_values cs vs ;; create vf (Ok 0) cs vs (fun b => EGlobalPhase b phase)
  | Call1 k t cs vs =>
    vs <- resize_and_check_control_values cs vs ;; create vf (vector_to_mask [t]) cs vs (EStd k)
  | CallCX c t => create vf (vector_to_mask [t]) [c] [1] (EStd GX)
  | CallCZ c t => create vf (vector_to_mask [t]) [c] [1] (EStd GZ)
  | CallCCX c1 c2 t => create vf (vector_to_mask [t]) [c1; c2] [1; 1] (EStd GX)
  | CallSwap t1 t2 cs vs =>
    vs <- resize_and_check_control_values cs vs ;; create vf (vector_to_mask [t1; t2]) cs vs ESwap
  | CallEcr pc pt cs vs =>
    vs <- resize_and_check_control_values cs vs ;;
    m <- mask_args vf (vector_to_mask [pt; pc]) cs vs ;;
    let '(t, c, cv) := m in
    pcm <- vector_to_mask [pc] ;;
    ptm <- vector_to_mask [pt] ;;
    b <- make_base t c cv ;; Ok (EEcr b pcm ptm)
  | CallPermutation dst =>
    let n := N.of_nat (length dst) in
    if 64 <=? n then Throw
    else
      let expected := if n =? 0 then 0 else sub64 (shl64 1 n) 1 in
      t <- vector_to_mask dst ;;
      if negb (t =? expected) then Throw else make_permutation_impl dst
  | CallPauli p cs vs =>
    vs <- resize_and_check_control_values cs vs ;;
    m <- mask_args vf (Ok 0) cs vs ;;
    let '(_, c, cv) := m in
    b <- make_pauli_base p c cv ;; Ok (EPauli b p)
  | CallPauliRotation p angle cs vs =>
    vs <- resize_and_check_control_values cs vs ;;
    m <- mask_args vf (Ok 0) cs vs ;;
    let '(_, c, cv) := m in
    b <- make_pauli_base p c cv ;; Ok (EPauliRotation b p angle)
  | CallDense ts M cs vs u =>
    vs <- resize_and_check_control_values cs vs ;;
    let nq := N.of_nat (length ts) in
    if 64 <=? nq then UB   (* 1ULL << nqubits *)
    else if negb (m_rows M =? shl64 1 nq) || negb (m_cols M =? shl64 1 nq) then Throw
    else
      let M' := if is_sorted ts then M else transform_dense_matrix_by_order M ts in
      create vf (vector_to_mask ts) cs vs (fun b => EDense b M' u)
  | CallSparse ts Sp cs vs =>
    vs <- resize_and_check_control_values cs vs ;;
    if is_sorted ts then create vf (vector_to_mask ts) cs vs (fun b => ESparse b Sp)
    else
      (* the size is not checked; reading the matrix outside its bounds is undefined (over-approximated to
         "every size other than 2^targets") *)
      if (64 <=? N.of_nat (length ts)) || negb (csr_rows Sp =? shl64 1 (N.of_nat (length ts))) then UB
      else
        let M := transform_dense_matrix_by_order (DMat (csr_rows Sp) (csr_rows Sp) (csr_to_dense Sp)) ts in
        create vf (vector_to_mask ts) cs vs (fun b => ESparse b (sparse_view M))
  end.
