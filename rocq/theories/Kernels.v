(** The state-vector update kernels: src/gate/update_ops_standard.cpp, src/gate/update_ops_matrix.cpp and
    the inline wrappers of src/gate/update_ops.hpp.

    A state of [n] qubits is a memory indexed by basis index.  A batch of [B] states is one memory indexed by
    the flat index b * 2^n + i: StateVectorBatched::at_unsafe(flat) (state_vector_batched.hpp) is
    _raw(flat >> n, flat & (dim-1)), so the same kernel text runs on both with flat_dim = B * 2^n; a single
    state is B = 1.  [D] below is flat_dim. *)
From Verif Require Export Bits Par Cplx Spec.

Notation cprog := (prog C N).
Record kernel (A : Type) : Type := Kernel { k_iters : N; k_body : N -> prog C A }.
Arguments Kernel {A}.
Arguments k_iters {A}.
Arguments k_body {A}.

(** x *= c   and   Kokkos::kokkos_swap(x, y) *)
Definition mul_at {A} (a : A) (c : C) (p : prog C A) : prog C A := Rd a (fun v => Wr a (v * c)%C p).
Definition swap_at {A} (a b : A) (p : prog C A) : prog C A :=
  Rd a (fun x => Rd b (fun y => Wr a y (Wr b x p))).

Definition INVERSE_SQRT2 : R := (sqrt 2 / 2)%R.  (* constant.hpp:14-15; the exact number *)

(** 2x2 and 4x4 matrices are functions of row and column. *)
Definition mat2 (a b c d : C) : matrix :=
  fun i j => match i, j with 0, 0 => a | 0, _ => b | _, 0 => c | _, _ => d end.

Section Kernels.
  (** n_qubits, flat_dim *)
  Variables (n D : N).

  (** update_ops_standard.cpp:15-31 one_target_phase_gate *)
  Definition one_target_phase_gate (t c cv : N) (phase : C) : kernel N :=
    Kernel (N.shiftr D (popcount (N.lor t c))) (fun it =>
      let i := N.lor (insert_zero_at_mask_positions it (N.lor c t)) cv in
      mul_at (N.lor i t) phase Ret).

  (** update_ops_standard.cpp:33-48 x_gate *)
  Definition x_gate (t c cv : N) : kernel N :=
    Kernel (N.shiftr D (popcount (N.lor t c))) (fun it =>
      let i := N.lor (insert_zero_at_mask_positions it (N.lor c t)) cv in
      swap_at i (N.lor i t) Ret).

  (** update_ops_standard.cpp:50-68 y_gate *)
  Definition y_gate (t c cv : N) : kernel N :=
    Kernel (N.shiftr D (popcount (N.lor t c))) (fun it =>
      let i := N.lor (insert_zero_at_mask_positions it (N.lor c t)) cv in
      mul_at i Ci (mul_at (N.lor i t) (- Ci)%C (swap_at i (N.lor i t) Ret))).

  (** update_ops_matrix.cpp:9-26 one_target_diagonal_matrix_gate *)
  Definition one_target_diagonal_matrix_gate (t c cv : N) (d0 d1 : C) : kernel N :=
    Kernel (N.shiftr D (popcount (N.lor t c))) (fun it =>
      let basis := N.lor (insert_zero_at_mask_positions it (N.lor t c)) cv in
      mul_at basis d0 (mul_at (N.lor basis t) d1 Ret)).

  (** update_ops_matrix.cpp:53-66 zero_target_dense_matrix_gate_scalar *)
  Definition zero_target_dense_matrix_gate_scalar (c cv : N) (m : C) : kernel N :=
    Kernel (N.shiftr D (popcount c)) (fun i =>
      mul_at (N.lor (insert_zero_at_mask_positions i c) cv) m Ret).

  (** update_ops_matrix.cpp:122-145 one_target_dense_matrix_gate_scalar *)
  Definition one_target_dense_matrix_gate_scalar (t c cv : N) (M : matrix) : kernel N :=
    Kernel (N.shiftr D (popcount (N.lor t c))) (fun it =>
      let basis_0 := N.lor (insert_zero_at_mask_positions it (N.lor c t)) cv in
      let basis_1 := N.lor basis_0 t in
      Rd basis_0 (fun val0 => Rd basis_1 (fun val1 =>
        let res0 := (M 0 0 * val0 + M 0 1 * val1)%C in
        let res1 := (M 1 0 * val0 + M 1 1 * val1)%C in
        Wr basis_0 res0 (Wr basis_1 res1 Ret)))).

  (** simd_complex.hpp:38-64: one complex lane of Coef * SimdComplex and of multiply_by_i *)
  Definition simd_multiply_by_i (v : C) : C := (- snd v, fst v)%R.
  Definition simd_coef_mul (m v : C) : C := Cadd (Cscale (fst m) v) (Cscale (snd m) (simd_multiply_by_i v)).

  (** simd_complex.hpp:49-57 load_aligned / store_aligned: [k] consecutive amplitudes from address [a] *)
  Fixpoint load_lanes (k : nat) (a : N) (cont : list C -> cprog) : cprog :=
    match k with
    | O => cont []
    | S k' => Rd a (fun v => load_lanes k' (a + 1) (fun vs => cont (v :: vs)))
    end.
  Fixpoint store_lanes (a : N) (vs : list C) (p : cprog) : cprog :=
    match vs with
    | [] => p
    | v :: r => Wr a v (store_lanes (a + 1) r p)
    end.
  (** load_aligned and store_aligned touch L consecutive amplitudes in memory.  The rows of a batch are separate
      in memory (they may be padded), so lanes that leave the row are modelled as an invalid access. *)
  Definition lanes_in_row (L a : N) (p : cprog) : cprog :=
    if N.land a (2 ^ n - 1) + L <=? 2 ^ n then p else Rd D (fun _ => Ret).
  Definition map2C (f : C -> C -> C) (l1 l2 : list C) : list C :=
    map (fun p => f (fst p) (snd p)) (combine l1 l2).

  (** update_ops_matrix.cpp:28-51 zero_target_dense_matrix_gate_simd; [L] = complex_lanes *)
  Definition zero_target_dense_matrix_gate_simd (L c cv : N) (m : C) : kernel N :=
    let flat_span := N.shiftr D (popcount c) in
    Kernel (flat_span / L) (fun g =>
      let compressed_base := g * L in
      let basis := N.lor (insert_zero_at_mask_positions compressed_base c) cv in
      lanes_in_row L basis
      (load_lanes (N.to_nat L) basis (fun v => store_lanes basis (map (simd_coef_mul m) v) Ret))).

  (** update_ops_matrix.cpp:88-120 one_target_dense_matrix_gate_simd *)
  Definition one_target_dense_matrix_gate_simd (L t c cv : N) (M : matrix) : kernel N :=
    let skip_mask := N.lor t c in
    let flat_span := N.shiftr D (popcount skip_mask) in
    Kernel (flat_span / L) (fun g =>
      let compressed_base := g * L in
      let basis0 := N.lor (insert_zero_at_mask_positions compressed_base skip_mask) cv in
      let basis1 := N.lor basis0 t in
      lanes_in_row L basis0 (lanes_in_row L basis1 (
      load_lanes (N.to_nat L) basis0 (fun v0 =>
      load_lanes (N.to_nat L) basis1 (fun v1 =>
        store_lanes basis0 (map2C Cadd (map (simd_coef_mul (M 0 0)) v0) (map (simd_coef_mul (M 0 1)) v1))
       (store_lanes basis1 (map2C Cadd (map (simd_coef_mul (M 1 0)) v0) (map (simd_coef_mul (M 1 1)) v1))
        Ret)))))).

  (** update_ops_matrix.cpp:68-86, 147-168: run-time dispatch.  [L] is complex_lanes, 0 when the
      configuration has no SIMD path (GPU, half precision). *)
  Definition use_simd (L skip_mask : N) : bool :=
    (0 <? L) && (L <=? N.shiftr (2 ^ n) (popcount skip_mask)) && (N.land skip_mask (sub64 L 1) =? 0).
  Definition zero_target_dense_matrix_gate (L c cv : N) (m : C) : kernel N :=
    if use_simd L c then zero_target_dense_matrix_gate_simd L c cv m
    else zero_target_dense_matrix_gate_scalar c cv m.
  Definition one_target_dense_matrix_gate (L t c cv : N) (M : matrix) : kernel N :=
    if use_simd L (N.lor t c) then one_target_dense_matrix_gate_simd L t c cv M
    else one_target_dense_matrix_gate_scalar t c cv M.

  (** update_ops_matrix.cpp:170-206 two_target_dense_matrix_gate *)
  Definition two_target_dense_matrix_gate (t c cv : N) (M : matrix) : kernel N :=
    let lower := N.land (neg64 t) t in
    let upper := N.lxor t lower in
    Kernel (N.shiftr D (popcount (N.lor t c))) (fun it =>
      let basis_0 := N.lor (insert_zero_at_mask_positions it (N.lor t c)) cv in
      let basis_1 := N.lor basis_0 lower in
      let basis_2 := N.lor basis_0 upper in
      let basis_3 := N.lor basis_1 t in
      Rd basis_0 (fun val0 => Rd basis_1 (fun val1 => Rd basis_2 (fun val2 => Rd basis_3 (fun val3 =>
        let row r := (M r 0 * val0 + M r 1 * val1 + M r 2 * val2 + M r 3 * val3)%C in
        Wr basis_0 (row 0) (Wr basis_1 (row 1) (Wr basis_2 (row 2) (Wr basis_3 (row 3) Ret)))))))).

  (** update_ops_standard.cpp:247-265 swap_gate *)
  Definition swap_gate (t c cv : N) : kernel N :=
    let lower := N.land t (neg64 t) in
    let upper := N.lxor t lower in
    Kernel (N.shiftr D (popcount (N.lor t c))) (fun it =>
      let basis := N.lor (insert_zero_at_mask_positions it (N.lor t c)) cv in
      swap_at (N.lor basis lower) (N.lor basis upper) Ret).

  (** update_ops_standard.cpp:267-305 ecr_gate; [pt] physical target mask, [pc] physical control mask *)
  Definition ecr_gate (pt pc c cv : N) : kernel N :=
    let s := RtoC INVERSE_SQRT2 in
    Kernel (N.shiftr D (popcount (N.lor (N.lor pt pc) c))) (fun it =>
      let basis_0 := N.lor (insert_zero_at_mask_positions it (N.lor (N.lor pt pc) c)) cv in
      let basis_1 := N.lor basis_0 pc in
      let basis_2 := N.lor basis_0 pt in
      let basis_3 := N.lor basis_1 pt in
      Rd basis_0 (fun val0 => Rd basis_1 (fun val1 => Rd basis_2 (fun val2 => Rd basis_3 (fun val3 =>
        let res0 := ((val1 + val3 * Ci) * s)%C in
        let res1 := ((val0 + val2 * (- Ci)) * s)%C in
        let res2 := ((val1 * Ci + val3) * s)%C in
        let res3 := ((val0 * (- Ci) + val2) * s)%C in
        Wr basis_0 res0 (Wr basis_1 res1 (Wr basis_2 res2 (Wr basis_3 res3 Ret)))))))).

  (** update_ops_standard.cpp:307-324 permutation_gate: one parallel loop per entry of the schedule *)
  Definition permutation_step (src dst : N) : kernel N :=
    let target_mask := N.lor (shl64 1 src) (shl64 1 dst) in
    Kernel (N.shiftr D 2) (fun it =>
      let basis := insert_zero_at_mask_positions it target_mask in
      swap_at (N.lor basis (shl64 1 src)) (N.lor basis (shl64 1 dst)) Ret).
  Definition permutation_gate (sched : list (N * N)) : list (kernel N) :=
    map (fun p => permutation_step (fst p) (snd p)) sched.

  (** ** Kernels with a second buffer.  Addresses are (buffer, index): buffer false is [state], buffer true
      the freshly allocated, uninitialised [update]. *)
  Definition addr2 : Type := bool * N.
  Definition addr2_eqb (a b : addr2) : bool := Bool.eqb (fst a) (fst b) && (snd a =? snd b).

  (** update_ops_matrix.cpp:225-236, 283-294 (initialize) *)
  Definition multi_init (c cv : N) : kernel addr2 :=
    Kernel D (fun i =>
      if N.land i c =? cv then Wr (true, i) C0 Ret
      else Rd (false, i) (fun v => Wr (true, i) v Ret)).

  (** inner parallel_reduce: reads matrix_dim amplitudes and sums; the order of the additions is
      unspecified in the code and irrelevant in exact arithmetic ([reduces_unique] in Par.v) *)
  Fixpoint dot_prog (l : list (C * N)) (acc : C) (cont : C -> prog C addr2) : prog C addr2 :=
    match l with
    | [] => cont acc
    | (m, a) :: r => Rd (false, a) (fun v => dot_prog r (acc + m * v)%C cont)
    end.
  Definition outer_mask (t : N) : N := N.land (not64 t) (sub64 (shl64 1 n) 1).

  (** update_ops_matrix.cpp:238-260 (update): league rank x team thread r is iteration rank * matrix_dim + r *)
  Definition multi_update (t c cv : N) (M : matrix) : kernel addr2 :=
    let matrix_dim := shl64 1 (popcount t) in
    Kernel (N.shiftr D (popcount (N.lor t c)) * matrix_dim) (fun w =>
      let rank := w / matrix_dim in
      let r := w mod matrix_dim in
      let basis := N.lor (insert_zero_at_mask_positions rank (N.lor t c)) cv in
      let dst_index := N.lor (insert_zero_at_mask_positions r (outer_mask t)) basis in
      dot_prog (map (fun col => (M r col, N.lor (insert_zero_at_mask_positions col (outer_mask t)) basis))
                    (seqN matrix_dim)) C0
        (fun sum => Wr (true, dst_index) sum Ret)).

  (** CSR matrix as in SparseMatrix: row_ptr, col_idx, vals *)
  Record csr : Type := Csr { csr_rows : N; csr_row_ptr : list N; csr_col_idx : list N; csr_vals : list C }.
  (** update_ops_matrix.cpp:296-317 sparse update *)
  Definition sparse_update (t c cv : N) (S : csr) : kernel addr2 :=
    Kernel (N.shiftr D (popcount (N.lor t c)) * csr_rows S) (fun w =>
      let rank := w / csr_rows S in
      let r := w mod csr_rows S in
      let basis := N.lor (insert_zero_at_mask_positions rank (N.lor t c)) cv in
      let dst_index := N.lor (insert_zero_at_mask_positions r (outer_mask t)) basis in
      let lo := nth (N.to_nat r) (csr_row_ptr S) 0 in
      let hi := nth (N.to_nat (r + 1)) (csr_row_ptr S) 0 in
      dot_prog (map (fun k => let idx := N.to_nat (lo + k) in
                              (nth idx (csr_vals S) C0,
                               N.lor (insert_zero_at_mask_positions (nth idx (csr_col_idx S) 0) (outer_mask t)) basis))
                    (seqN (hi - lo))) C0
        (fun sum => Wr (true, dst_index) sum Ret)).
End Kernels.

(** Running the kernels of one update one after the other (parallel_for is followed by the next only after
    all iterations are done), each as a sequential loop; [KernelsProofs.v] shows every schedule agrees. *)
Definition krun {A} (eqb : A -> A -> bool) (k : kernel A) (m : A -> C) : A -> C :=
  seq_for eqb (k_iters k) (k_body k) m.
Definition kcomputes {A} (eqb : A -> A -> bool) (valid : A -> bool) (k : kernel A) (m m' : A -> C) : Prop :=
  par_computes eqb valid (k_iters k) (k_body k) m m'.
(** A sequence of loops computes m' from m, whatever the schedules of the individual loops. *)
Fixpoint kcomputes_list {A} (eqb : A -> A -> bool) (valid : A -> bool) (ks : list (kernel A)) (m m' : A -> C) : Prop :=
  match ks with
  | [] => forall a, m' a = m a
  | k :: r => exists m1, kcomputes eqb valid k m m1 /\ kcomputes_list eqb valid r m1 m'
  end.
