(** Density matrices: src/state/density_matrix.cpp, include/scaluq/state/density_matrix.hpp, the update kernels
    src/gate/update_ops_dm_standard.cpp with the inline wrappers of src/gate/update_ops.hpp:402-505, and the
    update_quantum_state methods of gate_standard.cpp that take an ExecutionContextDensityMatrix.

    _raw is a two-dimensional View; an address is a pair (row, column), valid when both are below dim.
    _dim = 1ULL << n_qubits is 2^n (n < 64 in the theorems).  Numbers are exact. *)
From Verif Require Export State.

Notation dprog := (prog C (N * N)).
Notation dmem := (N * N -> C).

(** Reading several elements into a local array, and writing one. *)
Fixpoint reads {A} (l : list A) (k : list C -> prog C A) : prog C A :=
  match l with [] => k [] | a :: r => Rd a (fun v => reads r (fun vs => k (v :: vs))) end.
Fixpoint writes {A} (l : list (A * C)) (p : prog C A) : prog C A :=
  match l with [] => p | (a, v) :: r => Wr a v (writes r p) end.
(** for (x = 0; x < |v|; ++x) sum += coef[x] * v[x] *)
Definition dot (coef : N -> C) (v : list C) : C :=
  fold_left (fun sum xv => (sum + coef (fst xv) * snd xv)%C) (combine (seqN (N.of_nat (length v))) v) C0.

Section DmKernels.
  Variable n : N.
  Notation dim := (2 ^ n).
  (** dm.dim() >> std::popcount(mask) *)
  Definition n_groups (mask : N) : N := N.shiftr dim (popcount mask).

  (** update_ops_dm_standard.cpp:31-57, c = 0: ext[y * 4 + x] = matrix[y >> 1][x >> 1] * conj(matrix[y & 1][x & 1]) *)
  Definition dm_dense_block (t cv : N) (M : matrix) : kernel (N * N) :=
    let n_pairs := n_groups (N.lor t 0) in
    let ext i := let y := i / 4 in let x := i mod 4 in
      (M (N.shiftr y 1) (N.shiftr x 1) * Cconj (M (N.land y 1) (N.land x 1)))%C in
    Kernel (mul64 n_pairs n_pairs) (fun g =>
      let it_row := g / n_pairs in
      let it_col := g mod n_pairs in
      let row0 := N.lor (insert_zero_at_mask_positions it_row t) cv in
      let row1 := N.lor row0 t in
      let col0 := N.lor (insert_zero_at_mask_positions it_col t) cv in
      let col1 := N.lor col0 t in
      Rd (row0, col0) (fun v00 => Rd (row0, col1) (fun v01 => Rd (row1, col0) (fun v10 => Rd (row1, col1) (fun v11 =>
      Wr (row0, col0) (ext 0 * v00 + ext 1 * v01 + ext 2 * v10 + ext 3 * v11)%C
     (Wr (row0, col1) (ext 4 * v00 + ext 5 * v01 + ext 6 * v10 + ext 7 * v11)%C
     (Wr (row1, col0) (ext 8 * v00 + ext 9 * v01 + ext 10 * v10 + ext 11 * v11)%C
     (Wr (row1, col1) (ext 12 * v00 + ext 13 * v01 + ext 14 * v10 + ext 15 * v11)%C Ret)))))))).
  (** update_ops_dm_standard.cpp:59-73 *)
  Definition dm_dense_left (t c cv : N) (M : matrix) : kernel (N * N) :=
    let n_pairs := n_groups (N.lor t c) in
    Kernel (mul64 n_pairs dim) (fun g =>
      let it := g / dim in
      let col := g mod dim in
      let row0 := N.lor (insert_zero_at_mask_positions it (N.lor c t)) cv in
      let row1 := N.lor row0 t in
      Rd (row0, col) (fun val0 => Rd (row1, col) (fun val1 =>
      Wr (row0, col) (M 0 0 * val0 + M 0 1 * val1)%C
     (Wr (row1, col) (M 1 0 * val0 + M 1 1 * val1)%C Ret)))).
  (** update_ops_dm_standard.cpp:74-88 *)
  Definition dm_dense_right (t c cv : N) (M : matrix) : kernel (N * N) :=
    let n_pairs := n_groups (N.lor t c) in
    Kernel (mul64 dim n_pairs) (fun g =>
      let row := g / n_pairs in
      let it := g mod n_pairs in
      let col0 := N.lor (insert_zero_at_mask_positions it (N.lor c t)) cv in
      let col1 := N.lor col0 t in
      Rd (row, col0) (fun val0 => Rd (row, col1) (fun val1 =>
      Wr (row, col0) (Cconj (M 0 0) * val0 + Cconj (M 0 1) * val1)%C
     (Wr (row, col1) (Cconj (M 1 0) * val0 + Cconj (M 1 1) * val1)%C Ret)))).
  (** update_ops_dm_standard.cpp:25-90 one_target_dense_matrix_gate *)
  Definition dm_dense (t c cv : N) (M : matrix) : list (kernel (N * N)) :=
    if c =? 0 then [dm_dense_block t cv M] else [dm_dense_left t c cv M; dm_dense_right t c cv M].

  (** update_ops_dm_standard.cpp:105-128 *)
  Definition dm_diag_block (t cv : N) (d0 d1 : C) : kernel (N * N) :=
    let n_pairs := n_groups (N.lor t 0) in
    Kernel (mul64 n_pairs n_pairs) (fun g =>
      let it_row := g / n_pairs in
      let it_col := g mod n_pairs in
      let row0 := N.lor (insert_zero_at_mask_positions it_row t) cv in
      let row1 := N.lor row0 t in
      let col0 := N.lor (insert_zero_at_mask_positions it_col t) cv in
      let col1 := N.lor col0 t in
      mul_at (row0, col0) (d0 * Cconj d0)%C (mul_at (row0, col1) (d0 * Cconj d1)%C
     (mul_at (row1, col0) (d1 * Cconj d0)%C (mul_at (row1, col1) (d1 * Cconj d1)%C Ret)))).
  (** update_ops_dm_standard.cpp:129-169 *)
  Definition dm_diag_4block (t c cv : N) (d0 d1 : C) : kernel (N * N) :=
    let n_pairs := n_groups (N.lor t c) in
    let ctrl_active := N.land cv c in
    let ctrl_inactive := N.lxor c ctrl_active in
    let cd0 := Cconj d0 in
    let cd1 := Cconj d1 in
    Kernel (mul64 n_pairs n_pairs) (fun g =>
      let it_row := g / n_pairs in
      let it_col := g mod n_pairs in
      let br := insert_zero_at_mask_positions it_row (N.lor c t) in
      let bc := insert_zero_at_mask_positions it_col (N.lor c t) in
      let r_act0 := N.lor br ctrl_active in
      let r_act1 := N.lor r_act0 t in
      let r_ina0 := N.lor br ctrl_inactive in
      let r_ina1 := N.lor r_ina0 t in
      let c_act0 := N.lor bc ctrl_active in
      let c_act1 := N.lor c_act0 t in
      let c_ina0 := N.lor bc ctrl_inactive in
      let c_ina1 := N.lor c_ina0 t in
      mul_at (r_ina0, c_act0) cd0 (mul_at (r_ina0, c_act1) cd1
     (mul_at (r_ina1, c_act0) cd0 (mul_at (r_ina1, c_act1) cd1
     (mul_at (r_act0, c_ina0) d0 (mul_at (r_act0, c_ina1) d0
     (mul_at (r_act1, c_ina0) d1 (mul_at (r_act1, c_ina1) d1
     (mul_at (r_act0, c_act0) (d0 * cd0)%C (mul_at (r_act0, c_act1) (d0 * cd1)%C
     (mul_at (r_act1, c_act0) (d1 * cd0)%C (mul_at (r_act1, c_act1) (d1 * cd1)%C Ret)))))))))))).
  (** update_ops_dm_standard.cpp:171-196 *)
  Definition dm_diag_left (t c cv : N) (d0 d1 : C) : kernel (N * N) :=
    let n_pairs := n_groups (N.lor t c) in
    Kernel (mul64 n_pairs dim) (fun g =>
      let it := g / dim in
      let col := g mod dim in
      let row0 := N.lor (insert_zero_at_mask_positions it (N.lor c t)) cv in
      let row1 := N.lor row0 t in
      mul_at (row0, col) d0 (mul_at (row1, col) d1 Ret)).
  Definition dm_diag_right (t c cv : N) (d0 d1 : C) : kernel (N * N) :=
    let n_pairs := n_groups (N.lor t c) in
    Kernel (mul64 dim n_pairs) (fun g =>
      let row := g / n_pairs in
      let it := g mod n_pairs in
      let col0 := N.lor (insert_zero_at_mask_positions it (N.lor c t)) cv in
      let col1 := N.lor col0 t in
      mul_at (row, col0) (Cconj d0) (mul_at (row, col1) (Cconj d1) Ret)).
  (** update_ops_dm_standard.cpp:97-198 one_target_diagonal_matrix_gate *)
  Definition dm_diag (t c cv : N) (d0 d1 : C) : list (kernel (N * N)) :=
    if c =? 0 then [dm_diag_block t cv d0 d1]
    else if popcount c =? 1 then [dm_diag_4block t c cv d0 d1]
    else [dm_diag_left t c cv d0 d1; dm_diag_right t c cv d0 d1].

  (** update_ops_dm_standard.cpp:214-227: the elements (row1, col1) are left alone since phase * conj(phase) = 1 *)
  Definition dm_phase_block (t cv : N) (phase : C) : kernel (N * N) :=
    let n_pairs := n_groups (N.lor t 0) in
    Kernel (mul64 n_pairs n_pairs) (fun g =>
      let it_row := g / n_pairs in
      let it_col := g mod n_pairs in
      let row0 := N.lor (insert_zero_at_mask_positions it_row t) cv in
      let col0 := N.lor (insert_zero_at_mask_positions it_col t) cv in
      mul_at (row0, N.lor col0 t) (Cconj phase) (mul_at (N.lor row0 t, col0) phase Ret)).
  (** update_ops_dm_standard.cpp:228-258 *)
  Definition dm_phase_4block (t c cv : N) (phase : C) : kernel (N * N) :=
    let n_pairs := n_groups (N.lor t c) in
    let ctrl_active := N.land cv c in
    let ctrl_inactive := N.lxor c ctrl_active in
    Kernel (mul64 n_pairs n_pairs) (fun g =>
      let it_row := g / n_pairs in
      let it_col := g mod n_pairs in
      let br := insert_zero_at_mask_positions it_row (N.lor c t) in
      let bc := insert_zero_at_mask_positions it_col (N.lor c t) in
      let r_act0 := N.lor br ctrl_active in
      let r_act1 := N.lor r_act0 t in
      let r_ina0 := N.lor br ctrl_inactive in
      let r_ina1 := N.lor r_ina0 t in
      let c_act0 := N.lor bc ctrl_active in
      let c_act1 := N.lor c_act0 t in
      let c_ina0 := N.lor bc ctrl_inactive in
      let c_ina1 := N.lor c_ina0 t in
      mul_at (r_act1, c_ina0) phase (mul_at (r_act1, c_ina1) phase (mul_at (r_act1, c_act0) phase
     (mul_at (r_ina0, c_act1) (Cconj phase) (mul_at (r_ina1, c_act1) (Cconj phase)
     (mul_at (r_act0, c_act1) (Cconj phase) Ret)))))).
  (** update_ops_dm_standard.cpp:260-281 *)
  Definition dm_phase_left (t c cv : N) (phase : C) : kernel (N * N) :=
    let n_pairs := n_groups (N.lor t c) in
    Kernel (mul64 n_pairs dim) (fun g =>
      let it := g / dim in
      let col := g mod dim in
      let row1 := N.lor (N.lor (insert_zero_at_mask_positions it (N.lor c t)) cv) t in
      mul_at (row1, col) phase Ret).
  Definition dm_phase_right (t c cv : N) (phase : C) : kernel (N * N) :=
    let n_pairs := n_groups (N.lor t c) in
    Kernel (mul64 dim n_pairs) (fun g =>
      let row := g / n_pairs in
      let it := g mod n_pairs in
      let col1 := N.lor (N.lor (insert_zero_at_mask_positions it (N.lor c t)) cv) t in
      mul_at (row, col1) (Cconj phase) Ret).
  (** update_ops_dm_standard.cpp:205-283 one_target_phase_gate *)
  Definition dm_phase (t c cv : N) (phase : C) : list (kernel (N * N)) :=
    if c =? 0 then [dm_phase_block t cv phase]
    else if popcount c =? 1 then [dm_phase_4block t c cv phase]
    else [dm_phase_left t c cv phase; dm_phase_right t c cv phase].

  (** update_ops_dm_standard.cpp:298-318 *)
  Definition dm_global_left (c cv : N) (coef : C) : kernel (N * N) :=
    let n_ctrl := n_groups c in
    Kernel (mul64 n_ctrl dim) (fun g =>
      let it := g / dim in
      let col := g mod dim in
      let row := N.lor (insert_zero_at_mask_positions it c) cv in
      mul_at (row, col) coef Ret).
  Definition dm_global_right (c cv : N) (coef : C) : kernel (N * N) :=
    let n_ctrl := n_groups c in
    Kernel (mul64 dim n_ctrl) (fun g =>
      let row := g / n_ctrl in
      let it := g mod n_ctrl in
      let col := N.lor (insert_zero_at_mask_positions it c) cv in
      mul_at (row, col) (Cconj coef) Ret).
  (** update_ops_dm_standard.cpp:288-319 global_phase_gate *)
  Definition dm_global (c cv : N) (angle : R) : list (kernel (N * N)) :=
    if c =? 0 then [] else [dm_global_left c cv (Cexpi angle); dm_global_right c cv (Cexpi angle)].

  (** update_ops_dm_standard.cpp:335-350 *)
  Definition dm_x_block (t cv : N) : kernel (N * N) :=
    let n_pairs := n_groups (N.lor t 0) in
    Kernel (mul64 n_pairs n_pairs) (fun g =>
      let it_row := g / n_pairs in
      let it_col := g mod n_pairs in
      let row0 := N.lor (insert_zero_at_mask_positions it_row t) cv in
      let col0 := N.lor (insert_zero_at_mask_positions it_col t) cv in
      swap_at (row0, col0) (N.lor row0 t, N.lor col0 t)
     (swap_at (row0, N.lor col0 t) (N.lor row0 t, col0) Ret)).
  (** update_ops_dm_standard.cpp:351-381 *)
  Definition dm_x_4block (t c cv : N) : kernel (N * N) :=
    let n_pairs := n_groups (N.lor t c) in
    let ctrl_active := N.land cv c in
    let ctrl_inactive := N.lxor c ctrl_active in
    Kernel (mul64 n_pairs n_pairs) (fun g =>
      let it_row := g / n_pairs in
      let it_col := g mod n_pairs in
      let br := insert_zero_at_mask_positions it_row (N.lor c t) in
      let bc := insert_zero_at_mask_positions it_col (N.lor c t) in
      let r_act0 := N.lor br ctrl_active in
      let r_act1 := N.lor r_act0 t in
      let r_ina0 := N.lor br ctrl_inactive in
      let r_ina1 := N.lor r_ina0 t in
      let c_act0 := N.lor bc ctrl_active in
      let c_act1 := N.lor c_act0 t in
      let c_ina0 := N.lor bc ctrl_inactive in
      let c_ina1 := N.lor c_ina0 t in
      swap_at (r_ina0, c_act0) (r_ina0, c_act1) (swap_at (r_ina1, c_act0) (r_ina1, c_act1)
     (swap_at (r_act0, c_ina0) (r_act1, c_ina0) (swap_at (r_act0, c_ina1) (r_act1, c_ina1)
     (swap_at (r_act0, c_act0) (r_act1, c_act1) (swap_at (r_act0, c_act1) (r_act1, c_act0) Ret)))))).
  (** update_ops_dm_standard.cpp:383-404 *)
  Definition dm_x_left (t c cv : N) : kernel (N * N) :=
    let n_pairs := n_groups (N.lor t c) in
    Kernel (mul64 n_pairs dim) (fun g =>
      let it := g / dim in
      let col := g mod dim in
      let row0 := N.lor (insert_zero_at_mask_positions it (N.lor c t)) cv in
      swap_at (row0, col) (N.lor row0 t, col) Ret).
  Definition dm_x_right (t c cv : N) : kernel (N * N) :=
    let n_pairs := n_groups (N.lor t c) in
    Kernel (mul64 dim n_pairs) (fun g =>
      let row := g / n_pairs in
      let it := g mod n_pairs in
      let col0 := N.lor (insert_zero_at_mask_positions it (N.lor c t)) cv in
      swap_at (row, col0) (row, N.lor col0 t) Ret).
  (** update_ops_dm_standard.cpp:328-406 x_gate *)
  Definition dm_x (t c cv : N) : list (kernel (N * N)) :=
    if c =? 0 then [dm_x_block t cv]
    else if popcount c =? 1 then [dm_x_4block t c cv]
    else [dm_x_left t c cv; dm_x_right t c cv].

  (** update_ops_dm_standard.cpp:418-437 *)
  Definition dm_y_block (t cv : N) : kernel (N * N) :=
    let n_pairs := n_groups (N.lor t 0) in
    Kernel (mul64 n_pairs n_pairs) (fun g =>
      let it_row := g / n_pairs in
      let it_col := g mod n_pairs in
      let row0 := N.lor (insert_zero_at_mask_positions it_row t) cv in
      let row1 := N.lor row0 t in
      let col0 := N.lor (insert_zero_at_mask_positions it_col t) cv in
      let col1 := N.lor col0 t in
      Rd (row0, col0) (fun v00 => Rd (row0, col1) (fun v01 => Rd (row1, col0) (fun v10 => Rd (row1, col1) (fun v11 =>
      Wr (row0, col0) v11 (Wr (row0, col1) (- v10)%C (Wr (row1, col0) (- v01)%C (Wr (row1, col1) v00 Ret)))))))).
  (** update_ops_dm_standard.cpp:439-468 *)
  Definition dm_y_left (t c cv : N) : kernel (N * N) :=
    let n_pairs := n_groups (N.lor t c) in
    Kernel (mul64 n_pairs dim) (fun g =>
      let it := g / dim in
      let col := g mod dim in
      let row0 := N.lor (insert_zero_at_mask_positions it (N.lor c t)) cv in
      let row1 := N.lor row0 t in
      Rd (row0, col) (fun val0 => Rd (row1, col) (fun val1 =>
      Wr (row0, col) ((0, -1)%R * val1)%C (Wr (row1, col) ((0, 1)%R * val0)%C Ret)))).
  Definition dm_y_right (t c cv : N) : kernel (N * N) :=
    let n_pairs := n_groups (N.lor t c) in
    Kernel (mul64 dim n_pairs) (fun g =>
      let row := g / n_pairs in
      let it := g mod n_pairs in
      let col0 := N.lor (insert_zero_at_mask_positions it (N.lor c t)) cv in
      let col1 := N.lor col0 t in
      Rd (row, col0) (fun val0 => Rd (row, col1) (fun val1 =>
      Wr (row, col0) ((0, 1)%R * val1)%C (Wr (row, col1) ((0, -1)%R * val0)%C Ret)))).
  (** update_ops_dm_standard.cpp:411-470 y_gate *)
  Definition dm_y (t c cv : N) : list (kernel (N * N)) :=
    if c =? 0 then [dm_y_block t cv] else [dm_y_left t c cv; dm_y_right t c cv].

  (** update_ops_dm_standard.cpp:557-587 swap_gate *)
  Definition dm_swap_left (t c cv : N) : kernel (N * N) :=
    let lower := N.land t (neg64 t) in
    let upper := N.lxor t lower in
    let n_quads := n_groups (N.lor t c) in
    Kernel (mul64 n_quads dim) (fun g =>
      let it := g / dim in
      let col := g mod dim in
      let basis := N.lor (insert_zero_at_mask_positions it (N.lor t c)) cv in
      swap_at (N.lor basis lower, col) (N.lor basis upper, col) Ret).
  Definition dm_swap_right (t c cv : N) : kernel (N * N) :=
    let lower := N.land t (neg64 t) in
    let upper := N.lxor t lower in
    let n_quads := n_groups (N.lor t c) in
    Kernel (mul64 dim n_quads) (fun g =>
      let row := g / n_quads in
      let it := g mod n_quads in
      let basis := N.lor (insert_zero_at_mask_positions it (N.lor t c)) cv in
      swap_at (row, N.lor basis lower) (row, N.lor basis upper) Ret).
  Definition dm_swap (t c cv : N) : list (kernel (N * N)) := [dm_swap_left t c cv; dm_swap_right t c cv].

  (** update_ops_dm_standard.cpp:606-610 the table ecr[4][4] *)
  Definition dm_ecr_table : matrix :=
    let s := INVERSE_SQRT2 in
    mat4 [C0; (s, 0)%R; C0; (0, s)%R;
          (s, 0)%R; C0; (0, - s)%R; C0;
          C0; (0, s)%R; C0; (s, 0)%R;
          (0, - s)%R; C0; (s, 0)%R; C0].
  (** r[4] and c[4]: 633-642, 674-678, 698-702 *)
  Definition ecr_indices (base pt pc : N) : list N :=
    [base; N.lor base pc; N.lor base pt; N.lor (N.lor base pc) pt].
  (** update_ops_dm_standard.cpp:612-655: v[i * 4 + j] = _raw(r[i], c[j]) and
      _raw(r[y >> 2], c[y & 3]) = sum_x ext[y * 16 + x] * v[x] *)
  Definition dm_ecr_block (pt pc cv : N) : kernel (N * N) :=
    let all := N.lor (N.lor pt pc) 0 in
    let n_quads := n_groups all in
    let ext y x := (dm_ecr_table (N.shiftr y 2) (N.shiftr x 2) * Cconj (dm_ecr_table (N.land y 3) (N.land x 3)))%C in
    Kernel (mul64 n_quads n_quads) (fun g =>
      let it_row := g / n_quads in
      let it_col := g mod n_quads in
      let base_row := N.lor (insert_zero_at_mask_positions it_row all) cv in
      let base_col := N.lor (insert_zero_at_mask_positions it_col all) cv in
      let r := ecr_indices base_row pt pc in
      let c := ecr_indices base_col pt pc in
      reads (list_prod r c) (fun v =>
      writes (map (fun y => ((nth (N.to_nat (N.shiftr y 2)) r 0, nth (N.to_nat (N.land y 3)) c 0), dot (ext y) v)) (seqN 16)) Ret)).
  (** update_ops_dm_standard.cpp:666-686 *)
  Definition dm_ecr_left (pt pc c cv : N) : kernel (N * N) :=
    let all := N.lor (N.lor pt pc) c in
    let n_quads := n_groups all in
    Kernel (mul64 n_quads dim) (fun g =>
      let it := g / dim in
      let col := g mod dim in
      let base := N.lor (insert_zero_at_mask_positions it all) cv in
      let r := ecr_indices base pt pc in
      reads (map (fun i => (i, col)) r) (fun v =>
      writes (map (fun y => ((nth (N.to_nat y) r 0, col), dot (fun x => dm_ecr_table y x) v)) (seqN 4)) Ret)).
  (** update_ops_dm_standard.cpp:690-710 *)
  Definition dm_ecr_right (pt pc c cv : N) : kernel (N * N) :=
    let all := N.lor (N.lor pt pc) c in
    let n_quads := n_groups all in
    Kernel (mul64 dim n_quads) (fun g =>
      let row := g / n_quads in
      let it := g mod n_quads in
      let base := N.lor (insert_zero_at_mask_positions it all) cv in
      let cs := ecr_indices base pt pc in
      reads (map (fun j => (row, j)) cs) (fun v =>
      writes (map (fun y => ((row, nth (N.to_nat y) cs 0), dot (fun x => Cconj (dm_ecr_table y x)) v)) (seqN 4)) Ret)).
  (** update_ops_dm_standard.cpp:597-712 ecr_gate *)
  Definition dm_ecr (pt pc c cv : N) : list (kernel (N * N)) :=
    if c =? 0 then [dm_ecr_block pt pc cv] else [dm_ecr_left pt pc c cv; dm_ecr_right pt pc c cv].

  (** update_ops_dm_standard.cpp:472-554 and update_ops.hpp:402-505; ibmq_matrix (5-13) is the text of
      get_IBMQ_matrix *)
  Definition dm_std1 (k : std1) (t c cv : N) : list (kernel (N * N)) :=
    match k with
    | GX => dm_x t c cv
    | GY => dm_y t c cv
    | GZ => dm_diag t c cv C1 (- C1)%C
    | GH => dm_dense t c cv HADAMARD_MATRIX
    | GS => dm_phase t c cv Ci
    | GSdag => dm_phase t c cv (- Ci)%C
    | GT => dm_phase t c cv (INVERSE_SQRT2, INVERSE_SQRT2)
    | GTdag => dm_phase t c cv (INVERSE_SQRT2, - INVERSE_SQRT2)%R
    | GSqrtX => dm_dense t c cv SQRT_X_GATE_MATRIX
    | GSqrtXdag => dm_dense t c cv SQRT_X_DAG_GATE_MATRIX
    | GSqrtY => dm_dense t c cv SQRT_Y_GATE_MATRIX
    | GSqrtYdag => dm_dense t c cv SQRT_Y_DAG_GATE_MATRIX
    | GP0 => dm_dense t c cv PROJ_0_MATRIX
    | GP1 => dm_dense t c cv PROJ_1_MATRIX
    | GRX angle =>
      let cosval := cos (angle / 2) in
      let sinval := sin (angle / 2) in
      dm_dense t c cv (mat2 (RtoC cosval) (0, - sinval)%R (0, - sinval)%R (RtoC cosval))
    | GRY angle =>
      let cosval := cos (angle / 2) in
      let sinval := sin (angle / 2) in
      dm_dense t c cv (mat2 (RtoC cosval) (RtoC (- sinval)) (RtoC sinval) (RtoC cosval))
    | GRZ angle =>
      let cosval := cos (angle / 2) in
      let sinval := sin (angle / 2) in
      dm_diag t c cv (cosval, - sinval)%R (cosval, sinval)
    | GU1 lambda => dm_diag t c cv C1 (Cexpi lambda)
    | GU2 phi lambda => dm_dense t c cv (get_IBMQ_matrix (PI / 2) phi lambda)
    | GU3 theta phi lambda => dm_dense t c cv (get_IBMQ_matrix theta phi lambda)
    end.

  (** update_quantum_state(DensityMatrix&): gate_standard.cpp:36-1365 (the ExecutionContextDensityMatrix overloads);
      IGate does not check the bounds; every other class keeps the default of gate.hpp:482-500, which throws. *)
  Definition dm_update_plan (g : egate) : res (list (kernel (N * N))) :=
    let checked (p : list (kernel (N * N))) := if within_bounds n (g_base g) then Ok p else Throw in
    let t := g_t (g_base g) in
    let c := g_c (g_base g) in
    let cv := g_cv (g_base g) in
    match g with
    | EI => Ok []
    | EGlobalPhase _ phase => checked (dm_global c cv phase)
    | EStd k _ => checked (dm_std1 k t c cv)
    | ESwap _ => checked (dm_swap t c cv)
    | EEcr _ pc pt => checked (dm_ecr pt pc c cv)
    | EPermutation _ _ _ | EPauli _ _ | EPauliRotation _ _ _ | EDense _ _ _ | ESparse _ _ => Throw
    end.
End DmKernels.

(** complex.hpp:112-119 operator/= *)
Definition complex_div (z w : C) : C :=
  ((fst z * fst w + snd z * snd w) / Cnorm2 w, (snd z * fst w - fst z * snd w) / Cnorm2 w)%R.

(** * The DensityMatrix class *)

(** density_matrix.hpp: _raw and _is_hermitian (_n_qubits is the parameter n) *)
Record dmw : Type := DM { d_raw : dmem; d_herm : bool }.

Section Dm.
  Variable n : N.
  Notation dim := (2 ^ n).
  Definition d_valid (a : N * N) : bool := (fst a <? dim) && (snd a <? dim).

  (** parallel_for loops over the matrix *)
  Definition dkernels (ks : list (kernel (N * N))) : host dmw unit := fun w o =>
    exists scheds,
      match run_kernels pair_eqb d_valid ks scheds (d_raw w) with
      | Finished m => o = HDone tt (DM m (d_herm w))
      | Unfinished => False
      | OutOfBounds | DataRace => o = HUndefined
      end.
  (** MDRangePolicy<Rank<2>>({0,0},{dim,dim}): one iteration per pair (i, j), here numbered i * dim + j *)
  Definition dfor (f : N -> N -> dprog) : host dmw unit :=
    dkernels [Kernel (dim * dim) (fun g => f (g / dim) (g mod dim))].
  (** parallel_reduce *)
  Definition dsum {T} (zero : T) (add : T -> T -> T) (iters : N) (f : N -> rprog C (N * N) T) : host dmw T := fun w o =>
    exists t, reduction_of (seqN iters) t /\
      o = match reduce zero add (fun i => rrun d_valid (d_raw w) (f i)) t with
          | Some v => HDone v w
          | None => HUndefined
          end.
  Definition set_herm (b : bool) : host dmw unit := hmodify (fun w => DM (d_raw w) b).

  (** gate.update_quantum_state(dm) *)
  Definition dm_update (g : egate) : host dmw unit := ks <~ hlift (dm_update_plan n g);; dkernels ks.

  (** density_matrix.cpp:32-43 *)
  Definition get_coherence_at (r c : N) : host dmw C :=
    if (dim <=? r) || (dim <=? c) then hthrow else hget (fun w => d_raw w (r, c)).
  (** density_matrix.cpp:45-57 *)
  Definition set_coherence_at (r c : N) (v : C) : host dmw unit :=
    if (dim <=? r) || (dim <=? c) then hthrow
    else hmodify (fun w => DM (upd pair_eqb (d_raw w) (r, c) v)
                              (d_herm w && ((r =? c) && if Req_EM_T (snd v) 0 then true else false))).
  (** density_matrix.cpp:59-74 *)
  Definition set_coherence_pair_at (r c : N) (v : C) : host dmw unit :=
    if (dim <=? r) || (dim <=? c) then hthrow
    else hmodify (fun w =>
           let m := upd pair_eqb (d_raw w) (r, c) v in
           DM (if r =? c then m else upd pair_eqb m (c, r) (Cconj v)) (d_herm w)).
  (** density_matrix.cpp:76-89 *)
  Definition get_dm_matrix : host dmw dmat := hget (fun w => DMat dim dim (fun i j => d_raw w (i, j))).
  (** density_matrix.cpp:115-134 *)
  Definition dm_load_matrix (M : dmat) (is_hermitian : bool) : host dmw unit :=
    if negb (m_rows M =? dim) || negb (m_cols M =? dim) then hthrow
    else set_herm is_hermitian;~ dfor (fun i j => Wr (i, j) (m_at M i j) Ret).
  (** density_matrix.cpp:136-145; [m] qubits of the argument *)
  Definition dm_load_dm (m : N) (other : dmw) : host dmw unit :=
    if negb (m =? n) then hthrow
    else set_herm (d_herm other);~ dfor (fun i j => Wr (i, j) (d_raw other (i, j)) Ret).
  (** density_matrix.cpp:147-162 *)
  Definition dm_load_state (m : N) (psi : state) : host dmw unit :=
    if negb (m =? n) then hthrow
    else set_herm true;~ dfor (fun i j => Wr (i, j) (psi i * Cconj (psi j))%C Ret).
  (** density_matrix.cpp:184-192 *)
  Definition dm_set_zero_state : host dmw unit :=
    set_herm true;~ dfor (fun i j => Wr (i, j) (bit_amp ((i =? 0) && (j =? 0))) Ret).
  (** density_matrix.cpp:194-198 *)
  Definition dm_set_zero_norm_state : host dmw unit := set_herm true;~ dfor (fun i j => Wr (i, j) C0 Ret).
  (** density_matrix.cpp:200-214 *)
  Definition dm_set_computational_basis (b : N) : host dmw unit :=
    if dim <=? b then hthrow
    else set_herm true;~ dfor (fun i j => Wr (i, j) (bit_amp ((i =? b) && (j =? b))) Ret).
  (** density_matrix.hpp:33 *)
  Definition force_hermitian : host dmw unit := set_herm true.

  (** density_matrix.cpp:223-232 *)
  Definition get_trace : host dmw C := dsum C0 Cadd dim (fun i => RRd (i, i) (fun v => RVal v)).
  (** density_matrix.cpp:285-293.  Division by a zero trace yields NaN, which the numbers here do not have. *)
  Definition dm_normalize : host dmw unit :=
    trace <~ get_trace;;
    if Req_EM_T (Cnorm2 trace) 0 then hundefined
    else dfor (fun i j => Rd (i, j) (fun v => Wr (i, j) (complex_div v trace) Ret)).
  Definition need_hermitian {T} (p : host dmw T) : host dmw T :=
    h <~ hget d_herm;; if h : bool then p else hthrow.
  (** density_matrix.cpp:295-312 *)
  Definition get_purity : host dmw R :=
    need_hermitian (dsum 0%R Rplus (dim * dim) (fun g => RRd (g / dim, g mod dim) (fun v => RVal (Cnorm2 v)))).
  Definition read_diag (i : N) : rprog C (N * N) R := RRd (i, i) (fun v => RVal (fst v)).
  (** density_matrix.cpp:314-335 *)
  Definition dm_get_zero_probability (q : N) : host dmw R :=
    if n <=? q then hthrow
    else need_hermitian (dsum 0%R Rplus (N.shiftr dim 1) (fun i => read_diag (insert_zero_to_basis_index i q))).
  (** density_matrix.cpp:337-384 *)
  Definition dm_get_marginal_probability (vs : list N) : host dmw R :=
    if negb (N.of_nat (length vs) =? n) then hthrow
    else need_hermitian (ts <~ hlift (measured_targets 0 vs);;
           dsum 0%R Rplus (N.shiftr dim (N.of_nat (length ts))) (fun i => read_diag (fold_left insert_measured ts i))).
  (** density_matrix.cpp:448-467 *)
  Definition dm_get_entropy : host dmw R :=
    need_hermitian (dsum 0%R Rplus dim (fun i => RRd (i, i) (fun v =>
      RVal (if Rlt_dec 0 (fst v) then (- fst v * log2 (fst v))%R else 0%R)))).
  (** density_matrix.cpp:386-446; [rounds]: the numbers drawn in successive rounds.  parallel_scan computes the
      prefix sums of the diagonal. *)
  Fixpoint d_stacked (raw : dmem) (k : nat) : R :=
    match k with O => 0%R | S j => (d_stacked raw j + fst (raw (N.of_nat j, N.of_nat j)))%R end.
  Definition d_choose (raw : dmem) (r : R) : N :=
    bsearch (N.to_nat (dim + 1)) (fun i => d_stacked raw (N.to_nat i)) r 0 (dim + 1).
  Definition dm_sampling (w : dmw) (count : N) (rounds : list (N -> R)) : res (option (list N)) :=
    if negb (d_herm w) then Throw
    else Ok match sampling_loop n N.eqb (fun _ => d_choose (d_raw w)) rounds (seqN count) (fun _ => 0) with
            | Some r => Some (map r (seqN count))
            | None => None
            end.

  (** density_matrix.cpp:469-487; [same]: the argument is this object *)
  Definition add_density_matrix_with_coef (coef : C) (same : bool) (m : N) (other : dmw) : host dmw unit := fun w o =>
    if negb (m =? n) then o = HThrown w else
    let oh := if same then d_herm w else d_herm other in
    let w1 := DM (d_raw w) (if negb oh || (if Req_EM_T (snd coef) 0 then false else true) then false else d_herm w) in
    exists scheds,
      match run_kernels (fun a b => Bool.eqb (fst a) (fst b) && pair_eqb (snd a) (snd b)) (fun a => d_valid (snd a))
              [Kernel (dim * dim) (fun g => let ij := (g / dim, g mod dim) in
                 Rd (false, ij) (fun v => Rd (negb same, ij) (fun u => Wr (false, ij) (v + coef * u)%C Ret)))]
              scheds (fun a : bool * (N * N) => if fst a then d_raw other (snd a) else d_raw w1 (snd a)) with
      | Finished m' => o = HDone tt (DM (fun ij => m' (false, ij)) (d_herm w1))
      | Unfinished => False
      | OutOfBounds | DataRace => o = HUndefined
      end.
  (** density_matrix.cpp:489-499 *)
  Definition dm_multiply_coef (coef : C) : host dmw unit :=
    hmodify (fun w => DM (d_raw w) (if Req_EM_T (snd coef) 0 then d_herm w else false));~
    dfor (fun i j => mul_at (i, j) coef Ret).

  (** density_matrix.cpp:259-281.  The iteration of league rank g writes result(i, j); the inner
      parallel_reduce of a team only reads and its order of additions is irrelevant in exact arithmetic.
      Kokkos passes league sizes and ranks as int; the model has no such bound.
      Buffer false is this matrix, true the fresh uninitialised result. *)
  Fixpoint sum_reads {A} (l : list A) (acc : C) (cont : C -> prog C A) : prog C A :=
    match l with [] => cont acc | a :: r => Rd a (fun v => sum_reads r (acc + v)%C cont) end.
  Definition partial_trace_kernel (traced_out_mask traced_out_dim remaining_dim remaining_qubits : N) : kernel (bool * (N * N)) :=
    Kernel (mul64 remaining_dim remaining_dim) (fun rank =>
      let i := N.shiftr rank remaining_qubits in
      let j := N.land rank (sub64 remaining_dim 1) in
      let row_base := insert_zero_at_mask_positions i traced_out_mask in
      let col_base := insert_zero_at_mask_positions j traced_out_mask in
      sum_reads (map (fun k => let x := insert_zero_at_mask_positions k (not64 traced_out_mask) in
                               (false, (N.lor row_base x, N.lor col_base x))) (seqN traced_out_dim)) C0
        (fun sum => Wr (true, (i, j)) sum Ret)).
  (** density_matrix.cpp:234-283: the new object (its number of qubits is n minus the number of traced qubits) *)
  Definition get_partial_trace (qs : list N) : host dmw dmw :=
    match qs with
    | [] => hget (fun w => w)
    | _ =>
      if n <=? fold_right N.max 0 qs then hthrow
      else mask <~ hlift (vector_to_mask qs);;
           if negb (popcount mask =? N.of_nat (length qs)) then hthrow
           else
             let k := N.of_nat (length qs) in
             let traced_out_dim := shl64 1 k in
             let remaining_dim := dim / traced_out_dim in
             let remaining_qubits := n - k in
             fun w o => exists scheds junk,
               match run_kernels (fun a b => Bool.eqb (fst a) (fst b) && pair_eqb (snd a) (snd b))
                       (fun a => if fst a then (fst (snd a) <? 2 ^ remaining_qubits) && (snd (snd a) <? 2 ^ remaining_qubits)
                                 else d_valid (snd a))
                       [partial_trace_kernel mask traced_out_dim remaining_dim remaining_qubits] scheds
                       (fun a : bool * (N * N) => if fst a then junk (snd a) else d_raw w (snd a)) with
               | Finished m => o = HDone (DM (fun ij => m (true, ij)) (d_herm w)) w
               | Unfinished => False
               | OutOfBounds | DataRace => o = HUndefined
               end
    end.
End Dm.
