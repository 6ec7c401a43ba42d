(** Pauli operators: include/scaluq/operator/pauli_operator.hpp, src/operator/pauli_operator.cpp and
    include/scaluq/operator/apply_pauli.hpp. *)
From Verif Require Export Kernels.

(** pauli_operator.hpp:18-20: _coef, _bit_flip_mask, _phase_flip_mask *)
Record pauli : Type := Pauli { p_coef : C; p_bf : N; p_pf : N }.

(** constant.hpp:112-119 PHASE_90ROT, PHASE_M90ROT (indexed by a number below 4) *)
Definition PHASE_90ROT (k : N) : C := match k with 0 => C1 | 1 => Ci | 2 => (- C1)%C | _ => (- Ci)%C end.
Definition PHASE_M90ROT (k : N) : C := match k with 0 => C1 | 1 => (- Ci)%C | 2 => (- C1)%C | _ => Ci end.

(** pauli_operator.cpp:58-78 add_single_pauli; ids I = 0, X = 1, Y = 2, Z = 3 *)
Definition add_single_pauli (p : pauli) (target_qubit pauli_id : N) : res pauli :=
  if 64 <=? target_qubit then Throw
  else if 4 <=? pauli_id then Throw
  else if N.testbit (N.lor (p_bf p) (p_pf p)) target_qubit then Throw
  else
    let bf := if (pauli_id =? 1) || (pauli_id =? 2) then N.lor (p_bf p) (shl64 1 target_qubit) else p_bf p in
    let pf := if (pauli_id =? 2) || (pauli_id =? 3) then N.lor (p_pf p) (shl64 1 target_qubit) else p_pf p in
    Ok (Pauli (p_coef p) bf pf).

(** pauli_operator.cpp:31-46 constructor from target_qubit_list and pauli_id_list *)
Fixpoint add_paulis (p : pauli) (l : list (N * N)) : res pauli :=
  match l with
  | [] => Ok p
  | (q, id) :: r =>
    if id =? 0 then add_paulis p r
    else p' <- add_single_pauli p q id ;; add_paulis p' r
  end.
Definition pauli_from_lists (ts ids : list N) (coef : C) : res pauli :=
  if Nat.eqb (length ts) (length ids) then add_paulis (Pauli coef 0 0) (combine ts ids) else Throw.
(** pauli_operator.cpp:48-56 constructor from one id per qubit *)
Definition pauli_from_ids (ids : list N) (coef : C) : res pauli :=
  add_paulis (Pauli coef 0 0) (combine (seqN (N.of_nat (length ids))) ids).

(** pauli_operator.cpp:80-83 target_qubit_list *)
Definition pauli_target_list (p : pauli) : list N := mask_to_vector (N.lor (p_bf p) (p_pf p)).
(** pauli_operator.cpp:84-99 pauli_id_list *)
Fixpoint pauli_id_loop (fuel : nat) (bf pf sub_mask : N) : list N :=
  match fuel with
  | O => []
  | S f =>
    if sub_mask =? 0 then []
    else
      let q := ctz sub_mask in
      let rest := pauli_id_loop f bf pf (N.land sub_mask (sub64 sub_mask 1)) in
      if N.testbit (N.land bf pf) q then 2 :: rest
      else if N.testbit bf q then 1 :: rest
      else if N.testbit pf q then 3 :: rest
      else rest
  end.
Definition pauli_id_list (p : pauli) : list N := pauli_id_loop 64 (p_bf p) (p_pf p) (N.lor (p_bf p) (p_pf p)).

(** pauli_operator.cpp:129-132 get_dagger *)
Definition pauli_dagger (p : pauli) : pauli := Pauli (Cconj (p_coef p)) (p_bf p) (p_pf p).

(** pauli_operator.hpp:80-101 operator*(PauliOperator).  The counter is an int; at most 6 * 64 in absolute
    value, so it cannot overflow.  C++ % truncates towards zero ([Z.rem]). *)
Definition pauli_mul (a b : pauli) : pauli :=
  let x_left := N.land (p_bf a) (not64 (p_pf a)) in
  let y_left := N.land (p_bf a) (p_pf a) in
  let z_left := N.land (p_pf a) (not64 (p_bf a)) in
  let x_right := N.land (p_bf b) (not64 (p_pf b)) in
  let y_right := N.land (p_bf b) (p_pf b) in
  let z_right := N.land (p_pf b) (not64 (p_bf b)) in
  let pc u v := Z.of_N (popcount (N.land u v)) in
  let cnt := (pc x_left y_right + pc y_left z_right + pc z_left x_right
              - pc x_left z_right - pc y_left x_right - pc z_left y_right)%Z in
  let cnt := Z.rem cnt 4 in
  let cnt := if (cnt <? 0)%Z then (cnt + 4)%Z else cnt in
  Pauli ((p_coef a * p_coef b) * PHASE_90ROT (Z.to_N cnt))%C
        (N.lxor (p_bf a) (p_bf b)) (N.lxor (p_pf a) (p_pf b)).
(** pauli_operator.hpp:102-104 operator*(StdComplex) *)
Definition pauli_scale (a : pauli) (c : C) : pauli := Pauli (p_coef a * c)%C (p_bf a) (p_pf a).

(** Kokkos::popcount(x) & 1 *)
Definition parity (x : N) : bool := N.odd (popcount x).

Section ApplyPauli.
  Variable D : N.   (* flat_dim *)

  (** apply_pauli.hpp:15-56 apply_pauli *)
  Definition apply_pauli (c cv bf pf : N) (coef : C) : kernel N :=
    if bf =? 0 then
      Kernel (N.shiftr D (popcount c)) (fun i =>
        let state_idx := N.lor (insert_zero_at_mask_positions i c) cv in
        if parity (N.land state_idx pf) then mul_at state_idx (- coef)%C Ret
        else mul_at state_idx coef Ret)
    else
      let pivot := bit_width bf - 1 in
      let global_phase := PHASE_M90ROT (popcount (N.land bf pf) mod 4) in
      Kernel (N.shiftr D (popcount c + 1)) (fun i =>
        let basis_0 := N.lor (insert_zero_at_mask_positions i (N.lor c (shl64 1 pivot))) cv in
        let basis_1 := N.lxor basis_0 bf in
        Rd basis_0 (fun v0 => Rd basis_1 (fun v1 =>
          let tmp1 := (v0 * global_phase)%C in
          let tmp2 := (v1 * global_phase)%C in
          let tmp2 := if parity (N.land basis_0 pf) then (- tmp2)%C else tmp2 in
          let tmp1 := if parity (N.land basis_1 pf) then (- tmp1)%C else tmp1 in
          Wr basis_0 (tmp2 * coef)%C (Wr basis_1 (tmp1 * coef)%C Ret)))).

  (** util/math.hpp:137-145 complex sin and cos *)
  Definition Csin (z : C) : C := (sin (fst z) * cosh (snd z), cos (fst z) * sinh (snd z))%R.
  Definition Ccos (z : C) : C := (cos (fst z) * cosh (snd z), - sin (fst z) * sinh (snd z))%R.

  (** apply_pauli.hpp:173-232 apply_pauli_rotation *)
  Definition apply_pauli_rotation (c cv bf pf : N) (coef : C) (angle : R) : kernel N :=
    let cnt := popcount (N.land bf pf) in
    let true_angle := Cscale angle coef in
    let half_angle := Cscale (/ 2)%R true_angle in
    let cosval := Ccos (- half_angle)%C in
    let sinval := Csin (- half_angle)%C in
    if bf =? 0 then
      let cval_min := (cosval - Ci * sinval)%C in
      let cval_pls := (cosval + Ci * sinval)%C in
      Kernel (N.shiftr D (popcount c)) (fun i =>
        let state_idx := N.lor (insert_zero_at_mask_positions i c) cv in
        if parity (N.land state_idx pf) then mul_at state_idx cval_min Ret
        else mul_at state_idx cval_pls Ret)
    else
      let pivot := bit_width bf - 1 in
      Kernel (N.shiftr D (popcount c + 1)) (fun i =>
        let basis_0 := N.lor (insert_zero_at_mask_positions i (N.lor c (shl64 1 pivot))) cv in
        let basis_1 := N.lxor basis_0 bf in
        let bit_parity_0 := N.b2n (parity (N.land basis_0 pf)) in
        let bit_parity_1 := N.b2n (parity (N.land basis_1 pf)) in
        Rd basis_0 (fun cval_0 => Rd basis_1 (fun cval_1 =>
          Wr basis_0 (cosval * cval_0 + Ci * sinval * cval_1 * PHASE_M90ROT ((cnt + bit_parity_0 * 2) mod 4))%C
         (Wr basis_1 (cosval * cval_1 + Ci * sinval * cval_0 * PHASE_M90ROT ((cnt + bit_parity_1 * 2) mod 4))%C
          Ret)))).
End ApplyPauli.

(** pauli_operator.hpp:57-59 apply_to_state *)
Definition pauli_apply_to_state (D : N) (p : pauli) : kernel N :=
  apply_pauli D 0 0 (p_bf p) (p_pf p) (p_coef p).

(** pauli_operator.cpp:395-417 get_matrix_triplets_ignoring_coef: the masks compressed to the operand qubits *)
Fixpoint compress_loop (fuel : nat) (bf pf sub_mask idx : N) (bit_mask phase_mask : N) : N * N :=
  match fuel with
  | O => (bit_mask, phase_mask)
  | S f =>
    if sub_mask =? 0 then (bit_mask, phase_mask)
    else
      let q := ctz sub_mask in
      let bit_mask := if N.testbit bf q then N.lor bit_mask (shl64 1 idx) else bit_mask in
      let phase_mask := if N.testbit pf q then N.lor phase_mask (shl64 1 idx) else phase_mask in
      compress_loop f bf pf (N.land sub_mask (sub64 sub_mask 1)) (idx + 1) bit_mask phase_mask
  end.
Definition rot90 (bf pf : N) : C := PHASE_M90ROT (popcount (N.land bf pf) mod 4).
(** 1 - 2 * (popcount % 2) *)
Definition pauli_sign (x : N) : C := if parity x then (- C1)%C else C1.
Definition triplet : Type := (N * N * C)%type.
Definition pauli_triplets (p : pauli) : list triplet :=
  let '(bit_mask, phase_mask) := compress_loop 64 (p_bf p) (p_pf p) (N.lor (p_bf p) (p_pf p)) 0 0 0 in
  let matrix_dim := shl64 1 (bit_width (N.lor bit_mask phase_mask)) in
  map (fun index => (index, N.lxor index bit_mask,
                     (rot90 (p_bf p) (p_pf p) * pauli_sign (N.land index phase_mask))%C)) (seqN matrix_dim).
(** pauli_operator.cpp:419-433 get_full_matrix_triplets_ignoring_coef *)
Definition pauli_full_triplets (p : pauli) (n : N) : list triplet :=
  map (fun index => (index, N.lxor index (p_bf p),
                     (rot90 (p_bf p) (p_pf p) * pauli_sign (N.land index (p_pf p)))%C)) (seqN (shl64 1 n)).
(** setZero followed by mat(row, col) = value for every triplet (the last write to a cell wins) *)
Definition mat_of_triplets (l : list triplet) (f : C -> C) : matrix :=
  fold_left (fun M t => let '(r, c, v) := t in
                        fun i j => if (i =? r) && (j =? c) then f v else M i j) l (fun _ _ => C0).
(** pauli_operator.cpp:435-446 get_matrix *)
Definition pauli_get_matrix (p : pauli) : matrix :=
  mat_of_triplets (pauli_triplets p) (fun v => (v * p_coef p)%C).
(** pauli_operator.cpp:448-458 get_full_matrix: the coefficient is not used. *)
Definition pauli_get_full_matrix (p : pauli) (n : N) : matrix :=
  mat_of_triplets (pauli_full_triplets p n) (fun v => v).
(** pauli_operator.cpp:460-470 get_matrix_ignoring_coef *)
Definition pauli_get_matrix_ignoring_coef (p : pauli) : matrix :=
  mat_of_triplets (pauli_triplets p) (fun v => v).
(** pauli_operator.cpp:472-482 get_full_matrix_ignoring_coef *)
Definition pauli_get_full_matrix_ignoring_coef (p : pauli) (n : N) : matrix :=
  mat_of_triplets (pauli_full_triplets p n) (fun v => v).
