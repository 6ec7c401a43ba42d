(** Gate updates in rounded arithmetic (C62).

    In the rest of the model floating point numbers are exact reals.  Here every addition, subtraction and
    multiplication of the kernels is rounded, the functions of the mathematical library are only approximate, and
    the compiler may contract a product and a sum into one fused operation.  Not covered: overflow (numbers have no
    upper bound). *)
From Verif Require Export Gates Reduce.
Open Scope N_scope.

(** How x*y + z*w is evaluated: with all three roundings, or with one of the products not rounded because
    it was contracted with the sum (the default of GCC and Clang on machines with fused multiply-add). *)
Inductive fusing : Type := Separate | FuseFirst | FuseSecond.
(** type/floating_point.hpp, util/math.hpp, constant.hpp: a number type *)
Record arith : Type := Arith {
  a_rnd : R -> R;                              (* the result of an operation, and of static_cast<Float<Prec>> *)
  a_fuse : N -> R -> R -> R -> R -> fusing;    (* the compiler's choice at the numbered place of the kernel *)
  a_cos : R -> R;
  a_sin : R -> R;
  a_cosh : R -> R;
  a_sinh : R -> R;
  a_tree : list C -> list C -> rtree nat;      (* the order in which a parallel_reduce adds these products, Reduce.v *)
  a_exp0 : R;                                  (* std::exp(0) *)
  a_isq2 : R;                                  (* INVERSE_SQRT2(), constant.hpp:14-15, in the type *)
  a_pi2 : R                                    (* static_cast<Float>(Kokkos::numbers::pi / 2) *)
}.

Section Float.
  Variable A : arith.
  Notation rnd := (a_rnd A).

  Definition two_products (plus : R -> R -> R) (place : N) (x y z w : R) : R :=
    match a_fuse A place x y z w with
    | Separate => rnd (plus (rnd (x * y)%R) (rnd (z * w)%R))
    | FuseFirst => rnd (plus (x * y)%R (rnd (z * w)%R))
    | FuseSecond => rnd (plus (rnd (x * y)%R) (z * w)%R)
    end.
  (** type/complex.hpp:72-75 operator*; [place] numbers the multiplications of a kernel *)
  Definition f_mul (place : N) (a b : C) : C :=
    (two_products Rminus (2 * place) (fst a) (fst b) (snd a) (snd b),
     two_products Rplus (2 * place + 1) (fst a) (snd b) (snd a) (fst b)).
  (** type/complex.hpp:56-63 operator+; 54 unary minus is exact *)
  Definition f_add (a b : C) : C := (rnd (fst a + fst b)%R, rnd (snd a + snd b)%R).
  (** type/complex.hpp:94-99 a real number times a complex one *)
  Definition f_scale (r : R) (a : C) : C := (rnd (r * fst a)%R, rnd (r * snd a)%R).
  (** simd_complex.hpp:38-42, 59-66: one lane of Coef * SimdComplex; multiply_by_i is exact *)
  Definition f_simd_mul (place : N) (m v : C) : C :=
    (two_products Rplus (2 * place) (fst m) (fst v) (snd m) (- snd v)%R,
     two_products Rplus (2 * place + 1) (fst m) (snd v) (snd m) (fst v)).

  (** ** Coefficients *)
  Definition f_half (x : R) : R := rnd (x / 2)%R.
  (** util/math.hpp:146-149 exp(Complex(0, x)) *)
  Definition f_expi (x : R) : C := f_scale (a_exp0 A) (a_cos A x, a_sin A x).
  (** util/math.hpp:152-157 polar(1, x) *)
  Definition f_polar1 (x : R) : C := (rnd (1 * a_cos A x)%R, rnd (1 * a_sin A x)%R).
  (** gate_matrix.cpp:14-35: the entries are converted to the type *)
  Definition f_entry (z : C) : C := (rnd (fst z), rnd (snd z)).
  (** update_ops_standard.cpp:6-14 *)
  Definition f_IBMQ_matrix (theta phi lambda : R) : matrix :=
    let exp_val1 := f_expi phi in
    let exp_val2 := f_expi lambda in
    let cos_val := RtoC (a_cos A (f_half theta)) in
    let sin_val := RtoC (a_sin A (f_half theta)) in
    mat2 cos_val (f_mul 10 (- exp_val2)%C sin_val) (f_mul 11 exp_val1 sin_val) (f_mul 13 (f_mul 12 exp_val1 exp_val2) cos_val).
  (** constant.hpp:67-72 *)
  Definition f_HADAMARD : matrix := let s := RtoC (a_isq2 A) in mat2 s s s (- s)%C.

  (** ** Kernels; see Kernels.v for the places in the code *)
  Variables (n D L : N).
  Definition f_mul_at (place a : N) (c : C) (p : cprog) : cprog := Rd a (fun v => Wr a (f_mul place v c) p).
  Definition f_phase_gate (t c cv : N) (phase : C) : kernel N :=
    Kernel (N.shiftr D (popcount (N.lor t c))) (fun it =>
      let i := N.lor (insert_zero_at_mask_positions it (N.lor c t)) cv in
      f_mul_at 0 (N.lor i t) phase Ret).
  Definition f_y_gate (t c cv : N) : kernel N :=
    Kernel (N.shiftr D (popcount (N.lor t c))) (fun it =>
      let i := N.lor (insert_zero_at_mask_positions it (N.lor c t)) cv in
      f_mul_at 0 i Ci (f_mul_at 1 (N.lor i t) (- Ci)%C (swap_at i (N.lor i t) Ret))).
  Definition f_diagonal_gate (t c cv : N) (d0 d1 : C) : kernel N :=
    Kernel (N.shiftr D (popcount (N.lor t c))) (fun it =>
      let basis := N.lor (insert_zero_at_mask_positions it (N.lor t c)) cv in
      f_mul_at 0 basis d0 (f_mul_at 1 (N.lor basis t) d1 Ret)).
  Definition f_zero_scalar (c cv : N) (m : C) : kernel N :=
    Kernel (N.shiftr D (popcount c)) (fun i => f_mul_at 0 (N.lor (insert_zero_at_mask_positions i c) cv) m Ret).
  Definition f_one_scalar (t c cv : N) (M : matrix) : kernel N :=
    Kernel (N.shiftr D (popcount (N.lor t c))) (fun it =>
      let basis_0 := N.lor (insert_zero_at_mask_positions it (N.lor c t)) cv in
      let basis_1 := N.lor basis_0 t in
      Rd basis_0 (fun val0 => Rd basis_1 (fun val1 =>
        let res0 := f_add (f_mul 0 (M 0 0) val0) (f_mul 1 (M 0 1) val1) in
        let res1 := f_add (f_mul 2 (M 1 0) val0) (f_mul 3 (M 1 1) val1) in
        Wr basis_0 res0 (Wr basis_1 res1 Ret)))).
  Definition f_zero_simd (c cv : N) (m : C) : kernel N :=
    let flat_span := N.shiftr D (popcount c) in
    Kernel (flat_span / L) (fun g =>
      let compressed_base := g * L in
      let basis := N.lor (insert_zero_at_mask_positions compressed_base c) cv in
      lanes_in_row n D L basis
      (load_lanes (N.to_nat L) basis (fun v => store_lanes basis (map (f_simd_mul 0 m) v) Ret))).
  Definition f_one_simd (t c cv : N) (M : matrix) : kernel N :=
    let skip_mask := N.lor t c in
    let flat_span := N.shiftr D (popcount skip_mask) in
    Kernel (flat_span / L) (fun g =>
      let compressed_base := g * L in
      let basis0 := N.lor (insert_zero_at_mask_positions compressed_base skip_mask) cv in
      let basis1 := N.lor basis0 t in
      lanes_in_row n D L basis0 (lanes_in_row n D L basis1 (
      load_lanes (N.to_nat L) basis0 (fun v0 =>
      load_lanes (N.to_nat L) basis1 (fun v1 =>
        store_lanes basis0 (map2C f_add (map (f_simd_mul 0 (M 0 0)) v0) (map (f_simd_mul 1 (M 0 1)) v1))
       (store_lanes basis1 (map2C f_add (map (f_simd_mul 2 (M 1 0)) v0) (map (f_simd_mul 3 (M 1 1)) v1))
        Ret)))))).
  Definition f_zero_gate (c cv : N) (m : C) : kernel N := if use_simd n L c then f_zero_simd c cv m else f_zero_scalar c cv m.
  Definition f_one_gate (t c cv : N) (M : matrix) : kernel N :=
    if use_simd n L (N.lor t c) then f_one_simd t c cv M else f_one_scalar t c cv M.
  Definition f_two_gate (t c cv : N) (M : matrix) : kernel N :=
    let lower := N.land (neg64 t) t in
    let upper := N.lxor t lower in
    Kernel (N.shiftr D (popcount (N.lor t c))) (fun it =>
      let basis_0 := N.lor (insert_zero_at_mask_positions it (N.lor t c)) cv in
      let basis_1 := N.lor basis_0 lower in
      let basis_2 := N.lor basis_0 upper in
      let basis_3 := N.lor basis_1 t in
      Rd basis_0 (fun val0 => Rd basis_1 (fun val1 => Rd basis_2 (fun val2 => Rd basis_3 (fun val3 =>
        let row r := f_add (f_add (f_add (f_mul (4 * r) (M r 0) val0) (f_mul (4 * r + 1) (M r 1) val1)) (f_mul (4 * r + 2) (M r 2) val2)) (f_mul (4 * r + 3) (M r 3) val3) in
        Wr basis_0 (row 0) (Wr basis_1 (row 1) (Wr basis_2 (row 2) (Wr basis_3 (row 3) Ret)))))))).
  Definition f_ecr_gate (pt pc c cv : N) : kernel N :=
    let s := RtoC (a_isq2 A) in
    Kernel (N.shiftr D (popcount (N.lor (N.lor pt pc) c))) (fun it =>
      let basis_0 := N.lor (insert_zero_at_mask_positions it (N.lor (N.lor pt pc) c)) cv in
      let basis_1 := N.lor basis_0 pc in
      let basis_2 := N.lor basis_0 pt in
      let basis_3 := N.lor basis_1 pt in
      Rd basis_0 (fun val0 => Rd basis_1 (fun val1 => Rd basis_2 (fun val2 => Rd basis_3 (fun val3 =>
        let res0 := f_mul 1 (f_add val1 (f_mul 0 val3 Ci)) s in
        let res1 := f_mul 3 (f_add val0 (f_mul 2 val2 (- Ci)%C)) s in
        let res2 := f_mul 5 (f_add (f_mul 4 val1 Ci) val3) s in
        let res3 := f_mul 7 (f_add (f_mul 6 val0 (- Ci)%C) val2) s in
        Wr basis_0 res0 (Wr basis_1 res1 (Wr basis_2 res2 (Wr basis_3 res3 Ret)))))))).

  (** apply_pauli.hpp:15-56 *)
  Definition f_apply_pauli (c cv bf pf : N) (coef : C) : kernel N :=
    if bf =? 0 then
      Kernel (N.shiftr D (popcount c)) (fun i =>
        let state_idx := N.lor (insert_zero_at_mask_positions i c) cv in
        if parity (N.land state_idx pf) then f_mul_at 0 state_idx (- coef)%C Ret
        else f_mul_at 1 state_idx coef Ret)
    else
      let pivot := bit_width bf - 1 in
      let global_phase := PHASE_M90ROT (popcount (N.land bf pf) mod 4) in
      Kernel (N.shiftr D (popcount c + 1)) (fun i =>
        let basis_0 := N.lor (insert_zero_at_mask_positions i (N.lor c (shl64 1 pivot))) cv in
        let basis_1 := N.lxor basis_0 bf in
        Rd basis_0 (fun v0 => Rd basis_1 (fun v1 =>
          let tmp1 := f_mul 2 v0 global_phase in
          let tmp2 := f_mul 3 v1 global_phase in
          let tmp2 := if parity (N.land basis_0 pf) then (- tmp2)%C else tmp2 in
          let tmp1 := if parity (N.land basis_1 pf) then (- tmp1)%C else tmp1 in
          Wr basis_0 (f_mul 4 tmp2 coef) (Wr basis_1 (f_mul 5 tmp1 coef) Ret)))).
  (** util/math.hpp:136-144 *)
  Definition f_csin (z : C) : C := (rnd (a_sin A (fst z) * a_cosh A (snd z))%R, rnd (a_cos A (fst z) * a_sinh A (snd z))%R).
  Definition f_ccos (z : C) : C := (rnd (a_cos A (fst z) * a_cosh A (snd z))%R, rnd (- a_sin A (fst z) * a_sinh A (snd z))%R).
  (** type/complex.hpp:64-71 operator- *)
  Definition f_sub (a b : C) : C := (rnd (fst a - fst b)%R, rnd (snd a - snd b)%R).
  (** apply_pauli.hpp:173-232; -z is exact *)
  Definition f_apply_pauli_rotation (c cv bf pf : N) (coef : C) (angle : R) : kernel N :=
    let cnt := popcount (N.land bf pf) in
    let true_angle := f_scale angle coef in
    let half_angle := (f_half (fst true_angle), f_half (snd true_angle)) in
    let cosval := f_ccos (- half_angle)%C in
    let sinval := f_csin (- half_angle)%C in
    if bf =? 0 then
      let cval_min := f_sub cosval (f_mul 0 Ci sinval) in
      let cval_pls := f_add cosval (f_mul 1 Ci sinval) in
      Kernel (N.shiftr D (popcount c)) (fun i =>
        let state_idx := N.lor (insert_zero_at_mask_positions i c) cv in
        if parity (N.land state_idx pf) then f_mul_at 2 state_idx cval_min Ret
        else f_mul_at 3 state_idx cval_pls Ret)
    else
      let pivot := bit_width bf - 1 in
      Kernel (N.shiftr D (popcount c + 1)) (fun i =>
        let basis_0 := N.lor (insert_zero_at_mask_positions i (N.lor c (shl64 1 pivot))) cv in
        let basis_1 := N.lxor basis_0 bf in
        let bit_parity_0 := N.b2n (parity (N.land basis_0 pf)) in
        let bit_parity_1 := N.b2n (parity (N.land basis_1 pf)) in
        Rd basis_0 (fun cval_0 => Rd basis_1 (fun cval_1 =>
          Wr basis_0 (f_add (f_mul 4 cosval cval_0)
                            (f_mul 7 (f_mul 6 (f_mul 5 Ci sinval) cval_1) (PHASE_M90ROT ((cnt + bit_parity_0 * 2) mod 4))))
         (Wr basis_1 (f_add (f_mul 8 cosval cval_1)
                            (f_mul 11 (f_mul 10 (f_mul 9 Ci sinval) cval_0) (PHASE_M90ROT ((cnt + bit_parity_1 * 2) mod 4))))
          Ret)))).

  (** The value of a parallel_reduce with rounded additions *)
  Fixpoint f_tree (t : rtree nat) (x : nat -> C) : C :=
    match t with
    | RLeaf l => fold_left (fun sum i => f_add sum (x i)) l C0
    | RJoin l r => f_add (f_tree l x) (f_tree r x)
    end.
  Definition f_row (l : list (C * N)) (vs : list C) : C :=
    f_tree (a_tree A (map fst l) vs) (fun i => f_mul 0 (fst (nth i l (C0, 0))) (nth i vs C0)).
  (** inner parallel_reduce: reads the amplitudes and adds up the products *)
  Fixpoint f_reads (l : list N) (vs : list C) (cont : list C -> prog C addr2) : prog C addr2 :=
    match l with
    | [] => cont vs
    | a :: r => Rd (false, a) (fun v => f_reads r (vs ++ [v]) cont)
    end.
  Definition f_dot_prog (l : list (C * N)) (cont : C -> prog C addr2) : prog C addr2 :=
    f_reads (map snd l) [] (fun vs => cont (f_row l vs)).
  (** update_ops_matrix.cpp:238-260 *)
  Definition f_multi_update (t c cv : N) (M : matrix) : kernel addr2 :=
    let matrix_dim := shl64 1 (popcount t) in
    Kernel (N.shiftr D (popcount (N.lor t c)) * matrix_dim) (fun w =>
      let rank := w / matrix_dim in
      let r := w mod matrix_dim in
      let basis := N.lor (insert_zero_at_mask_positions rank (N.lor t c)) cv in
      let dst_index := N.lor (insert_zero_at_mask_positions r (outer_mask n t)) basis in
      f_dot_prog (map (fun col => (M r col, N.lor (insert_zero_at_mask_positions col (outer_mask n t)) basis)) (seqN matrix_dim))
        (fun sum => Wr (true, dst_index) sum Ret)).
  (** update_ops_matrix.cpp:296-317 *)
  Definition f_sparse_update (t c cv : N) (S : csr) : kernel addr2 :=
    Kernel (N.shiftr D (popcount (N.lor t c)) * csr_rows S) (fun w =>
      let rank := w / csr_rows S in
      let r := w mod csr_rows S in
      let basis := N.lor (insert_zero_at_mask_positions rank (N.lor t c)) cv in
      let dst_index := N.lor (insert_zero_at_mask_positions r (outer_mask n t)) basis in
      let lo := nth (N.to_nat r) (csr_row_ptr S) 0 in
      let hi := nth (N.to_nat (r + 1)) (csr_row_ptr S) 0 in
      f_dot_prog (map (fun k => let idx := N.to_nat (lo + k) in
                                (f_entry (nth idx (csr_vals S) C0),
                                 N.lor (insert_zero_at_mask_positions (nth idx (csr_col_idx S) 0) (outer_mask n t)) basis))
                      (seqN (hi - lo)))
        (fun sum => Wr (true, dst_index) sum Ret)).

  (** ** Gates; see Gates.v.  The angles in a gate object are numbers of the type. *)
  Definition f_std1_kernel (k : std1) (t c cv : N) : kernel N :=
    match k with
    | GX => x_gate D t c cv
    | GY => f_y_gate t c cv
    | GZ => f_phase_gate t c cv (- C1)%C
    | GH => f_one_gate t c cv f_HADAMARD
    | GS => f_phase_gate t c cv Ci
    | GSdag => f_phase_gate t c cv (- Ci)%C
    | GT => f_phase_gate t c cv (a_isq2 A, a_isq2 A)
    | GTdag => f_phase_gate t c cv (a_isq2 A, - a_isq2 A)%R
    | GSqrtX => f_one_gate t c cv SQRT_X_GATE_MATRIX
    | GSqrtXdag => f_one_gate t c cv SQRT_X_DAG_GATE_MATRIX
    | GSqrtY => f_one_gate t c cv SQRT_Y_GATE_MATRIX
    | GSqrtYdag => f_one_gate t c cv SQRT_Y_DAG_GATE_MATRIX
    | GP0 => f_one_gate t c cv PROJ_0_MATRIX
    | GP1 => f_one_gate t c cv PROJ_1_MATRIX
    | GRX angle =>
      let cosval := a_cos A (f_half angle) in
      let sinval := a_sin A (f_half angle) in
      f_one_gate t c cv (mat2 (RtoC cosval) (0, - sinval)%R (0, - sinval)%R (RtoC cosval))
    | GRY angle =>
      let cosval := a_cos A (f_half angle) in
      let sinval := a_sin A (f_half angle) in
      f_one_gate t c cv (mat2 (RtoC cosval) (RtoC (- sinval)%R) (RtoC sinval) (RtoC cosval))
    | GRZ angle =>
      let cosval := a_cos A (f_half angle) in
      let sinval := a_sin A (f_half angle) in
      f_diagonal_gate t c cv (cosval, - sinval)%R (cosval, sinval)
    | GU1 lambda => f_phase_gate t c cv (f_expi lambda)
    | GU2 phi lambda => f_one_gate t c cv (f_IBMQ_matrix (a_pi2 A) phi lambda)
    | GU3 theta phi lambda => f_one_gate t c cv (f_IBMQ_matrix theta phi lambda)
    end.
  (** update_quantum_state of every class; see Gates.v, update_plan *)
  Definition f_update_plan (g : egate) : res plan :=
    let checked (p : plan) : res plan := if within_bounds n (g_base g) then Ok p else Throw in
    let t := g_t (g_base g) in
    let c := g_c (g_base g) in
    let cv := g_cv (g_base g) in
    match g with
    | EI => Ok (InPlace [])
    | EGlobalPhase _ phase => checked (InPlace [f_zero_gate c cv (f_polar1 phase)])
    | EStd k _ => checked (InPlace [f_std1_kernel k t c cv])
    | ESwap _ => checked (InPlace [swap_gate D t c cv])
    | EEcr _ pc pt => checked (InPlace [f_ecr_gate pt pc c cv])
    | EPermutation _ _ sched => checked (InPlace (permutation_gate D sched))
    | EDense _ M _ =>
      if (m_rows M =? 1) && (m_cols M =? 1) then checked (InPlace [f_zero_gate c cv (f_entry (m_at M 0 0))])
      else if (m_rows M =? 2) && (m_cols M =? 2) then checked (InPlace [f_one_gate t c cv (fun i j => f_entry (m_at M i j))])
      else if (m_rows M =? 4) && (m_cols M =? 4) then checked (InPlace [f_two_gate t c cv (fun i j => f_entry (m_at M i j))])
      else checked (Buffered [multi_init D c cv; f_multi_update t c cv (fun i j => f_entry (m_at M i j))])
    | EPauli _ p => Ok (InPlace [f_apply_pauli c cv (p_bf p) (p_pf p) (f_entry (p_coef p))])
    | EPauliRotation _ p angle => Ok (InPlace [f_apply_pauli_rotation c cv (p_bf p) (p_pf p) (f_entry (p_coef p)) angle])
    | ESparse _ Sp => checked (Buffered [multi_init D c cv; f_sparse_update t c cv Sp])
    end.
End Float.
