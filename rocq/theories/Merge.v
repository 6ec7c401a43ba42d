(** Gate merging: src/base/util/utility.cpp and src/gate/merge_gate.cpp.  Floating point numbers are exact reals. *)
From Verif Require Export Gates.

(** * get_expanded_matrix (src/base/util/utility.cpp:5-53) *)
Section Expand.
  Variables (from : matrix) (ts : list N) (c cv : N) (ops : list N).

  (** utility.cpp:10-13 targets_map *)
  Definition em_targets_map : list N := map (lower_bound ops) ts.
  (** utility.cpp:14-19 idx_map[i] *)
  Definition em_idx (i : N) : N :=
    fold_left (fun acc jm => N.lor acc (shl64 (N.land (N.shiftr i (fst jm)) 1) (snd jm)))
              (combine (seqN (N.of_nat (length ts))) em_targets_map) 0.
  (** utility.cpp:20-27 to_control_mask and to_control_value_mask; the loop runs once per set bit of the mask *)
  Fixpoint em_controls_loop (fuel : nat) (sub_mask m v : N) : N * N :=
    match fuel with
    | O => (m, v)
    | S f =>
      if sub_mask =? 0 then (m, v)
      else
        let ctrz := ctz sub_mask in
        let sll := lower_bound ops ctrz in
        em_controls_loop f (N.land sub_mask (sub64 sub_mask 1))
          (N.lor m (shl64 1 sll)) (N.lor v (shl64 (N.land (N.shiftr cv ctrz) 1) sll))
    end.
  Definition em_controls : N * N := em_controls_loop 64 c 0 0.
  (** utility.cpp:29-34 outer_indices *)
  Definition em_outer : list N :=
    filter (fun i => N.land i (fst em_controls) =? snd em_controls) (seqN (shl64 1 (N.of_nat (length ops)))).
  (** utility.cpp:39-46 the cells written by the first nest of loops, in the order of the writes *)
  Definition em_writes1 : list (N * N * C) :=
    let d := shl64 1 (N.of_nat (length ts)) in
    flat_map (fun i => flat_map (fun j => map (fun o =>
      (N.lor (N.lor (em_idx i) (snd em_controls)) o, N.lor (N.lor (em_idx j) (snd em_controls)) o, from i j))
      em_outer) (seqN d)) (seqN d).
  (** utility.cpp:48-50 the second loop *)
  Definition em_writes2 : list (N * N * C) :=
    map (fun i => (i, i, C1))
      (filter (fun i => negb (N.land i (fst em_controls) =? snd em_controls)) (seqN (shl64 1 (N.of_nat (length ops))))).
  (** to_matrix(r, c) = v *)
  Definition em_write (M : matrix) (w : N * N * C) : matrix :=
    fun i j => if (i =? fst (fst w)) && (j =? snd (fst w)) then snd w else M i j.
  Definition em_all_writes : list (N * N * C) := em_writes1 ++ em_writes2.
End Expand.

(** utility.cpp:5-53.  Shifting by 64 or more, reading outside [from] and writing outside the result are
    undefined. *)
Definition get_expanded_matrix (from : dmat) (ts : list N) (c cv : N) (ops : list N) : res dmat :=
  let k := N.of_nat (length ops) in
  let dim := shl64 1 k in
  if (64 <=? N.of_nat (length ts)) || (64 <=? k) || (64 <=? sub64 (sub64 k (N.of_nat (length ts))) (popcount c))
     || existsb (fun m => 64 <=? m) (em_targets_map ts ops)
     || existsb (fun q => 64 <=? lower_bound ops q) (mask_to_vector c)
     || negb (m_rows from =? shl64 1 (N.of_nat (length ts))) || negb (m_cols from =? shl64 1 (N.of_nat (length ts)))
     || existsb (fun w => (dim <=? fst (fst w)) || (dim <=? snd (fst w))) (em_all_writes (m_at from) ts c cv ops)
  then UB
  else Ok (DMat dim dim (fold_left em_write (em_all_writes (m_at from) ts c cv ops) (fun _ _ => C0))).

(** * merge_gate *)

(** A Gate<Prec>: the pointer carries a GateType next to the object.  It is the type of the object ([true]) except
    for the result of get_inverse, a pointer to GateBase, whose type is GateType::Unknown (gate.hpp:566-610). *)
Definition tgate : Type := (bool * egate)%type.
(** What a comparison of gate_type() can see. *)
Definition seen_type (g : tgate) : option egate := if fst g then Some (snd g) else None.

(** merge_gate.cpp:8-38 merge_gate_dense_matrix.  Eigen's product of two d x d matrices is [mat_mul d]. *)
Definition merge_gate_dense_matrix (vf : bool) (g1 g2 : egate) : res (tgate * R) :=
  let b1 := g_base g1 in
  let b2 := g_base g2 in
  let common := N.land (g_c b1) (g_c b2) in
  let common := N.land common (not64 (N.lxor (g_cv b1) (g_cv b2))) in
  let common_v := N.land common (g_cv b1) in
  let merged := N.land (N.lor (N.lor (g_t b1) (g_c b1)) (N.lor (g_t b2) (g_c b2))) (not64 common) in
  let ops := mask_to_vector merged in
  m1 <- get_expanded_matrix (get_matrix g1) (gate_target_list g1)
          (N.land (g_c b1) (not64 common)) (N.land (g_cv b1) (not64 common)) ops ;;
  m2 <- get_expanded_matrix (get_matrix g2) (gate_target_list g2)
          (N.land (g_c b2) (not64 common)) (N.land (g_cv b2) (not64 common)) ops ;;
  let M := DMat (m_rows m2) (m_cols m1) (mat_mul (m_cols m2) (m_at m2) (m_at m1)) in
  g <- make vf (CallDense ops M (mask_to_vector common) (mask_to_values common common_v) false) ;;
  Ok ((true, g), 0%R).

(** merge_gate.cpp:43 *)
Definition eps : R := / 10 ^ 12.
(** std::abs(x) < eps ? 0 : x *)
Definition snap (x : R) : R := if Rlt_dec (Rabs x) eps then 0%R else x.
Definition is_zero (x : R) : bool := if Req_EM_T x 0 then true else false.

(** merge_gate.cpp:91-97 get_pauli_id *)
Definition get_pauli_id (g : option egate) : option N :=
  match g with
  | Some EI => Some 0
  | Some (EStd GX _) => Some 1 | Some (EStd GY _) => Some 2 | Some (EStd GZ _) => Some 3
  | _ => None
  end.
(** merge_gate.cpp:175-183 get_oct_phase *)
Definition get_oct_phase (g : option egate) : option N :=
  match g with
  | Some EI => Some 0
  | Some (EStd GZ _) => Some 4 | Some (EStd GS _) => Some 2 | Some (EStd GSdag _) => Some 6
  | Some (EStd GT _) => Some 1 | Some (EStd GTdag _) => Some 7
  | _ => None
  end.
(** merge_gate.cpp:184-199 oct_phase_gate *)
Definition oct_phase_gate (oct : N) : option (option std1) :=
  match N.land oct 7 with
  | 0 => Some None | 4 => Some (Some GZ) | 2 => Some (Some GS) | 6 => Some (Some GSdag)
  | 1 => Some (Some GT) | 7 => Some (Some GTdag) | _ => None
  end.
(** merge_gate.cpp:236-242, 286-292 get_quad_rx and get_quad_ry *)
Definition get_quad_rx (g : option egate) : option N :=
  match g with
  | Some EI => Some 0
  | Some (EStd GX _) => Some 2 | Some (EStd GSqrtX _) => Some 1 | Some (EStd GSqrtXdag _) => Some 3
  | _ => None
  end.
Definition get_quad_ry (g : option egate) : option N :=
  match g with
  | Some EI => Some 0
  | Some (EStd GY _) => Some 2 | Some (EStd GSqrtY _) => Some 1 | Some (EStd GSqrtYdag _) => Some 3
  | _ => None
  end.
(** merge_gate.cpp:243-254, 293-304 quad_rx_gate and quad_ry_gate *)
Definition quad_rx_gate (q : N) : option (option std1) :=
  match N.land q 3 with
  | 0 => Some None | 2 => Some (Some GX) | 1 => Some (Some GSqrtX) | 3 => Some (Some GSqrtXdag) | _ => None
  end.
Definition quad_ry_gate (q : N) : option (option std1) :=
  match N.land q 3 with
  | 0 => Some None | 2 => Some (Some GY) | 1 => Some (Some GSqrtY) | 3 => Some (Some GSqrtYdag) | _ => None
  end.

(** A special case returns a gate and a phase, or falls through to the next one ([None]). *)
Definition case : Type := option (res (tgate * R)).
Definition or_else (a b : case) : case := match a with Some r => Some r | None => b end.

Section MergeCases.
  Variables (vf : bool) (g1 g2 : tgate).
  Let v1 := seen_type g1.
  Let v2 := seen_type g2.
  Let c1 := g_c (g_base (snd g1)).
  (** merge_gate.cpp:77-78 *)
  Let cs := gate_control_list (snd g1).
  Let cvs := gate_control_values (snd g1).
  (** target_qubit_list()[0]; undefined for a gate without targets, and evaluated only for one-target gates *)
  Let target1 := hd 0 (gate_target_list (snd g1)).
  Let target2 := hd 0 (gate_target_list (snd g2)).

  (** A gate made by a factory; the pointer knows its type. *)
  Definition returning (k : call) (phase : R) : res (tgate * R) := g <- make vf k ;; Ok ((true, g), phase).
  Definition return1 (k : std1) (phase : R) : res (tgate * R) := returning (Call1 k target1 cs cvs) phase.
  Definition return_opt (k : option std1) (phase : R) : res (tgate * R) :=
    match k with None => returning CallI phase | Some k => return1 k phase end.

  (** merge_gate.cpp:80-88 *)
  Definition merge_phases : case :=
    match v1, v2 with
    | Some (EGlobalPhase _ p1), Some (EGlobalPhase _ p2) => Some (returning (CallGlobalPhase (p1 + p2) cs cvs) 0)
    | _, _ => None
    end.
  (** merge_gate.cpp:102-156 *)
  Definition merge_paulis1 : case :=
    match get_pauli_id v1, get_pauli_id v2 with
    | Some i, Some j =>
      if target1 =? target2 then
        if i =? j then Some (returning CallI 0)
        else
          match i, j with
          | 1, 2 => if c1 =? 0 then Some (return1 GZ (- PI / 2)) else None
          | 1, 3 => if c1 =? 0 then Some (return1 GY (PI / 2)) else None
          | 2, 3 => if c1 =? 0 then Some (return1 GX (- PI / 2)) else None
          | 2, 1 => if c1 =? 0 then Some (return1 GZ (PI / 2)) else None
          | 3, 1 => if c1 =? 0 then Some (return1 GY (- PI / 2)) else None
          | 3, 2 => if c1 =? 0 then Some (return1 GX (PI / 2)) else None
          | _, _ => None
          end
      else None
    | _, _ => None
    end.
  (** merge_gate.cpp:157-172 *)
  Definition pauli_view (v : option egate) (target : N) : option (res pauli) :=
    match v with
    | Some (EPauli _ p) => Some (Ok p)
    | _ => match get_pauli_id v with Some i => Some (pauli_from_lists [target] [i] C1) | None => None end
    end.
  Definition merge_paulis : case :=
    match pauli_view v1 target1, pauli_view v2 target2 with
    | Some p1, Some p2 =>
      Some (p1 <- p1 ;; p2 <- p2 ;; returning (CallPauli (pauli_mul p2 p1) cs cvs) 0)
    | _, _ => None
    end.
  (** merge_gate.cpp:200-209, 255-264, 305-314 *)
  Definition merge_table (f : option egate -> option N) (tbl : N -> option (option std1)) (m : N) : case :=
    match f v1, f v2 with
    | Some a, Some b =>
      if target1 =? target2 then
        match tbl ((a + b) mod m) with Some k => Some (return_opt k 0) | None => None end
      else None
    | _, _ => None
    end.
  (** merge_gate.cpp:210-233: the angle and the global phase of a gate of the RZ family *)
  Definition rz_view (v : option egate) : option (R * R) :=
    match get_oct_phase v with
    | Some o => Some (IZR (Z.of_N o) * PI / 4, 0)%R
    | None => match v with
              | Some (EStd (GRZ a) _) => Some (a, - a / 2)%R
              | Some (EStd (GU1 l) _) => Some (l, 0)%R
              | _ => None
              end
    end.
  (** merge_gate.cpp:265-283 *)
  Definition rx_view (v : option egate) : option (R * R) :=
    match get_quad_rx v with
    | Some q => let a := (IZR (Z.of_N q) * PI / 2)%R in Some (a, a / 2)%R
    | None => match v with Some (EStd (GRX a) _) => Some (a, 0)%R | _ => None end
    end.
  (** merge_gate.cpp:315-333 *)
  Definition ry_view (v : option egate) : option (R * R) :=
    match get_quad_ry v with
    | Some q => let a := (IZR (Z.of_N q) * PI / 2)%R in Some (a, a / 2)%R
    | None => match v with Some (EStd (GRY a) _) => Some (a, 0)%R | _ => None end
    end.
  Definition merge_rotations (view : option egate -> option (R * R)) (k : R -> std1) : case :=
    match view v1, view v2 with
    | Some (a1, p1), Some (a2, p2) =>
      if target1 =? target2 then
        let global_phase := snap (p1 + p2) in
        if (c1 =? 0) || is_zero global_phase then Some (return1 (k (a1 + a2)%R) global_phase) else None
      else None
    | _, _ => None
    end.
  (** merge_gate.cpp:335-339 *)
  Definition merge_swaps : case :=
    match v1, v2 with
    | Some (ESwap b1), Some (ESwap b2) => if g_t b1 =? g_t b2 then Some (returning CallI 0) else None
    | _, _ => None
    end.
End MergeCases.

(** merge_gate.cpp:40-343.  The throw for Probabilistic gates is in Circuit.v: they are not in [egate]. *)
Definition merge_gate (vf : bool) (g1 g2 : tgate) : res (tgate * R) :=
  let v1 := seen_type g1 in
  let v2 := seen_type g2 in
  let b1 := g_base (snd g1) in
  let b2 := g_base (snd g2) in
  let is_perm v := match v with Some (EPermutation _ _ _) => true | _ => false end in
  if is_perm v1 || is_perm v2 then Throw
  else
    match v1 with Some EI => Ok (g2, 0%R) | _ =>
    match v2 with Some EI => Ok (g1, 0%R) | _ =>
    let dense := merge_gate_dense_matrix vf (snd g1) (snd g2) in
    let general : res (tgate * R) :=
      if negb ((g_c b1 =? g_c b2) && (g_cv b1 =? g_cv b2)) then dense
      else
        match or_else (merge_phases vf g1 g2)
             (or_else (merge_paulis1 vf g1 g2)
             (or_else (merge_paulis vf g1 g2)
             (or_else (merge_table vf g1 g2 get_oct_phase oct_phase_gate 8)
             (or_else (merge_rotations vf g1 g2 rz_view GU1)
             (or_else (merge_table vf g1 g2 get_quad_rx quad_rx_gate 4)
             (or_else (merge_rotations vf g1 g2 rx_view GRX)
             (or_else (merge_table vf g1 g2 get_quad_ry quad_ry_gate 4)
             (or_else (merge_rotations vf g1 g2 ry_view GRY)
                      (merge_swaps vf g1 g2))))))))) with
        | Some r => r
        | None => dense
        end in
    let second : res (tgate * R) :=
      match v2 with
      | Some (EGlobalPhase b p) => if g_c b =? 0 then Ok (g1, p) else general
      | _ => general
      end in
    match v1 with
    | Some (EGlobalPhase b p) => if g_c b =? 0 then Ok (g2, p) else second
    | _ => second
    end
    end end.
