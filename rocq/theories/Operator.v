(** Observables: the expectation values and transition amplitudes of src/operator/pauli_operator.cpp, and
    src/operator/operator.cpp. *)
From Verif Require Export Reduce Gates.

(** The complex value of type std::complex whose imaginary part is compared with zero. *)
Definition is_real (c : C) : bool := if Req_EM_T (snd c) 0 then true else false.
(** sign change when Kokkos::popcount(x) & 1 *)
Definition flipR (x : N) (v : R) : R := if parity x then (- v)%R else v.
Definition flipC (x : N) (v : C) : C := if parity x then (- v)%C else v.
(** PHASE_90ROT()[popcount(bit_flip_mask & phase_flip_mask) % 4] *)
Definition phase90 (bf pf : N) : C := PHASE_90ROT (popcount (N.land bf pf) mod 4).

(** * PauliOperator (D = dim of the state) *)
Section PauliObservables.
  Variable p : pauli.
  Variable D : N.
  Let bf := p_bf p.
  Let pf := p_pf p.
  Let valid (a : N) := a <? D.

  (** pauli_operator.cpp:135-175 get_expectation_value(StateVector): the loop over all basis states ... *)
  Definition expect_diag (state_idx : N) : rprog C N R :=
    RRd state_idx (fun v => RVal (flipR (N.land state_idx pf) (Re (Cconj v * v)%C))).
  (** ... and over pairs *)
  Definition expect_pair (state_idx : N) : rprog C N R :=
    let basis_0 := insert_zero_to_basis_index state_idx (bit_width bf - 1) in
    let basis_1 := N.lxor basis_0 bf in
    RRd basis_0 (fun v0 => RRd basis_1 (fun v1 =>
      RVal (flipR (N.land basis_0 pf) (Re (Cscale 2 (v0 * Cconj v1 * phase90 bf pf)%C))))).
  Definition expect_iters : list N := if bf =? 0 then seqN D else seqN (N.shiftr D 1).
  Definition pauli_expectation (psi : state) (t : rtree N) : option C :=
    option_map (fun r => (p_coef p * RtoC r)%C)
      (rreduce (fun i => rrun valid psi (if bf =? 0 then expect_diag i else expect_pair i)) t).

  (** pauli_operator.cpp:246-287 get_transition_amplitude(bra, ket); address (false, i) is bra[i] and (true, i)
      is ket[i].  Nothing compares the two sizes; D' is the size of the ket. *)
  Variable D' : N.
  Let valid2 (a : addr2) := if fst a then snd a <? D' else snd a <? D.
  Definition trans_diag (state_idx : N) : rprog C addr2 C :=
    RRd (false, state_idx) (fun b => RRd (true, state_idx) (fun k =>
      RVal (flipC (N.land state_idx pf) (Cconj b * k)%C))).
  Definition trans_pair (state_idx : N) : rprog C addr2 C :=
    let basis_0 := insert_zero_to_basis_index state_idx (bit_width bf - 1) in
    let basis_1 := N.lxor basis_0 bf in
    RRd (false, basis_1) (fun b1 => RRd (true, basis_0) (fun k0 =>
    RRd (false, basis_0) (fun b0 => RRd (true, basis_1) (fun k1 =>
      RVal (flipC (N.land basis_0 pf) (Cconj b1 * k0 * phase90 bf pf)%C
            + flipC (N.land basis_1 pf) (Cconj b0 * k1 * phase90 bf pf)%C)%C)))).
  Definition bra_ket (bra ket : state) : addr2 -> C := fun a => if fst a then ket (snd a) else bra (snd a).
  Definition pauli_transition (bra ket : state) (t : rtree N) : option C :=
    option_map (fun r => (p_coef p * r)%C)
      (creduce (fun i => rrun valid2 (bra_ket bra ket) (if bf =? 0 then trans_diag i else trans_pair i)) t).

  (** pauli_operator.cpp:289-367 get_transition_amplitude on batched states, one element of the batch: the sum is
      real, and in the second loop bra and ket are exchanged and every term doubled. *)
  Definition trans_diag_batched (state_idx : N) : rprog C addr2 R :=
    RRd (false, state_idx) (fun b => RRd (true, state_idx) (fun k =>
      RVal (flipR (N.land state_idx pf) (Re (Cconj b * k)%C)))).
  Definition trans_pair_batched (state_idx : N) : rprog C addr2 R :=
    let basis_0 := insert_zero_to_basis_index state_idx (bit_width bf - 1) in
    let basis_1 := N.lxor basis_0 bf in
    RRd (false, basis_0) (fun b0 => RRd (true, basis_1) (fun k1 =>
    RRd (false, basis_1) (fun b1 => RRd (true, basis_0) (fun k0 =>
      RVal (flipR (N.land basis_0 pf) (Re (Cscale 2 (b0 * Cconj k1 * phase90 bf pf)%C))
            + flipR (N.land basis_1 pf) (Re (Cscale 2 (b1 * Cconj k0 * phase90 bf pf)%C)))%R)))).
  Definition pauli_transition_batched (bra ket : state) (t : rtree N) : option C :=
    option_map (fun r => (p_coef p * RtoC r)%C)
      (rreduce (fun i => rrun valid2 (bra_ket bra ket) (if bf =? 0 then trans_diag_batched i else trans_pair_batched i)) t).
End PauliObservables.

(** * Operator *)
(** operator.hpp:117-119: _terms, _is_hermitian, _is_view.  Rounding and memory sharing between copies of the
    View are not modelled: an operator is a value. *)
Record operator : Type := Op { o_terms : list pauli; o_herm : bool; o_view : bool }.
Definition all_real (l : list pauli) : bool := forallb (fun p => is_real (p_coef p)) l.

(** operator.hpp:26 Operator(n_terms): default-constructed PauliOperators *)
Definition op_new (n : nat) : operator := Op (repeat (Pauli C1 0 0) n) true false.
(** operator.cpp:7-18 Operator(terms) *)
Definition op_of_terms (l : list pauli) : operator := Op l (all_real l) false.
(** operator.cpp:20-27 copy *)
Definition op_copy (o : operator) : operator := Op (o_terms o) (o_herm o) false.
(** operator.cpp:39-55 load *)
Definition op_load (o : operator) (l : list pauli) : res operator :=
  if Nat.eqb (length l) (length (o_terms o)) then Ok (Op l (all_real l) (o_view o)) else Throw.
(** operator.hpp:34 force_hermitian *)
Definition op_force (o : operator) : operator := Op (o_terms o) true (o_view o).

(** operator.cpp:57-75 optimize: a std::map from (x mask, z mask), ordered lexicographically *)
Definition key : Type := (N * N)%type.
Definition key_lt (a b : key) : bool := (fst a <? fst b) || ((fst a =? fst b) && (snd a <? snd b)).
Definition key_eqb (a b : key) : bool := (fst a =? fst b) && (snd a =? snd b).
Fixpoint map_add (m : list (key * C)) (k : key) (c : C) : list (key * C) :=
  match m with
  | [] => [(k, (C0 + c)%C)]
  | (k', c') :: r =>
    if key_eqb k k' then (k', (c' + c)%C) :: r
    else if key_lt k k' then (k, (C0 + c)%C) :: (k', c') :: r
    else (k', c') :: map_add r k c
  end.
Definition collect (l : list pauli) : list (key * C) :=
  fold_left (fun m p => map_add m (p_bf p, p_pf p) (p_coef p)) l [].
Definition op_optimize (o : operator) : res operator :=
  if o_view o then Throw
  else Ok (op_of_terms (map (fun e => Pauli (snd e) (fst (fst e)) (snd (fst e))) (collect (o_terms o)))).

(** operator.cpp:77-90 get_dagger *)
Definition op_dagger (o : operator) : operator := Op (map pauli_dagger (o_terms o)) (o_herm o) false.

(** operator.cpp:91-104 get_full_matrix: mat(row, col) += value * coef *)
Definition op_full_matrix (o : operator) (n : N) : matrix :=
  fold_left (fun M p =>
    fold_left (fun M' t => let '(r, c, v) := t in
                           fun i j => if (i =? r) && (j =? c) then (M' i j + v * p_coef p)%C else M' i j)
              (pauli_full_triplets p n) M)
    (o_terms o) (fun _ _ => C0).

(** operator.cpp:557-572 operator*=(coef), operator*(coef) *)
Definition op_scale_in_place (o : operator) (c : C) : operator :=
  Op (map (fun p => Pauli (p_coef p * c)%C (p_bf p) (p_pf p)) (o_terms o)) (o_herm o && is_real c) (o_view o).
Definition op_scale (o : operator) (c : C) : operator := op_scale_in_place (op_copy o) c.
(** operator.cpp:574-593 operator*(Operator): nnz_count counts the products whose coefficient is real *)
Definition op_mul (a b : operator) : operator :=
  let l := flat_map (fun p => map (fun q => pauli_mul p q) (o_terms b)) (o_terms a) in
  let nnz_count := N.of_nat (length (filter (fun p => is_real (p_coef p)) l)) in
  Op l (nnz_count =? 0) false.
(** operator.cpp:595-610 operator*=(PauliOperator), operator*(PauliOperator) *)
Definition op_mul_pauli_in_place (o : operator) (q : pauli) : operator :=
  Op (map (fun p => pauli_mul p q) (o_terms o)) (o_herm o && is_real (p_coef q)) (o_view o).
Definition op_mul_pauli (o : operator) (q : pauli) : operator := op_mul_pauli_in_place (op_copy o) q.
(** operator.cpp:612-631 operator+(Operator) *)
Definition op_add (a b : operator) : operator := Op (o_terms a ++ o_terms b) (o_herm a && o_herm b) false.
(** operator.cpp:633-650 operator+(PauliOperator) *)
Definition op_add_pauli (a : operator) (q : pauli) : operator :=
  Op (o_terms a ++ [q]) (o_herm a && is_real (p_coef q)) false.
(** operator.hpp:86, 88, 91 unary and binary minus *)
Definition op_neg (a : operator) : operator := op_scale a (- C1)%C.
Definition op_sub (a b : operator) : operator := op_add a (op_scale b (- C1)%C).
Definition op_sub_pauli (a : operator) (q : pauli) : operator := op_add_pauli a (pauli_scale q (- C1)%C).

Section OperatorObservables.
  Variable o : operator.
  Variable D : N.
  Definition no_pauli : pauli := Pauli C0 0 0.
  Definition term (i : N) : pauli := nth (N.to_nat i) (o_terms o) no_pauli.
  Let nterms := N.of_nat (length (o_terms o)).

  (** operator.cpp:106-114 apply_to_state: one copy of the state per term (set_state_vector), term b applied to
      copy b (apply_pauli.hpp:58-106, a team works on its own row only), and the copies added up
      (state_vector_batched.cpp:517-535 get_reduced_state).  [scheds b] is the schedule of team b, [trees i] the
      reduction tree of amplitude i. *)
  Definition op_apply_to_state (psi : state) (scheds : N -> list N) (trees : N -> rtree N) : outcome (option C) N :=
    let run b := run_kernels N.eqb (fun a => a <? D) [apply_pauli D 0 0 (p_bf (term b)) (p_pf (term b)) (p_coef (term b))] [scheds b] psi in
    if existsb (fun b => match run b with OutOfBounds => true | _ => false end) (seqN nterms) then OutOfBounds
    else if existsb (fun b => match run b with DataRace => true | _ => false end) (seqN nterms) then DataRace
    else if existsb (fun b => match run b with Unfinished => true | _ => false end) (seqN nterms) then Unfinished
    else Finished (fun i => creduce (fun b => match run b with Finished r => Some (r i) | _ => None end) (trees i)).

  (** operator.cpp:116-160 get_expectation_value(StateVector): one loop over (term, state_idx < dim >> 1) *)
  Definition op_expect_body (it : N * N) : rprog C N C :=
    let p := term (fst it) in
    let state_idx := snd it in
    if p_bf p =? 0 then
      let state_idx1 := shl64 state_idx 1 in
      let state_idx2 := N.lor state_idx1 1 in
      RRd state_idx1 (fun v1 => RRd state_idx2 (fun v2 =>
        RVal (p_coef p * RtoC (flipR (N.land state_idx1 (p_pf p)) (Re (Cconj v1 * v1)%C)
                               + flipR (N.land state_idx2 (p_pf p)) (Re (Cconj v2 * v2)%C)))%C))
    else
      let basis_0 := insert_zero_to_basis_index state_idx (bit_width (p_bf p) - 1) in
      let basis_1 := N.lxor basis_0 (p_bf p) in
      RRd basis_0 (fun v0 => RRd basis_1 (fun v1 =>
        RVal (p_coef p * RtoC (flipR (N.land basis_0 (p_pf p)) (Re (Cscale 2 (v0 * Cconj v1 * phase90 (p_bf p) (p_pf p))%C))))%C)).
  Definition op_iters : list (N * N) := list_prod (seqN nterms) (seqN (N.shiftr D 1)).
  Definition op_expectation (psi : state) (t : rtree (N * N)) : option C :=
    creduce (fun it => rrun (fun a => a <? D) psi (op_expect_body it)) t.

  (** operator.cpp:163-236 get_expectation_values: entry [term_id] of the returned vector.  The loop bound is
      static_cast<int>(dim >> 1). *)
  Definition cast_int (x : N) : Z :=
    let r := Z.of_N (x mod 2 ^ 32) in if (r <? 2 ^ 31)%Z then r else (r - 2 ^ 32)%Z.
  Definition op_expectations_iters : list N := seqN (Z.to_N (cast_int (N.shiftr D 1))).
  Definition op_expectations (term_id : N) (psi : state) (t : rtree N) : option C :=
    creduce (fun i => rrun (fun a => a <? D) psi (op_expect_body (term_id, i))) t.

  (** operator.cpp:300-349 get_transition_amplitude: both states have the same size (checked) *)
  Definition op_trans_body (it : N * N) : rprog C addr2 C :=
    let p := term (fst it) in
    let state_idx := snd it in
    if p_bf p =? 0 then
      let state_idx1 := shl64 state_idx 1 in
      let state_idx2 := N.lor state_idx1 1 in
      RRd (false, state_idx1) (fun b1 => RRd (true, state_idx1) (fun k1 =>
      RRd (false, state_idx2) (fun b2 => RRd (true, state_idx2) (fun k2 =>
        RVal (p_coef p * (flipC (N.land state_idx1 (p_pf p)) (Cconj b1 * k1)%C
                          + flipC (N.land state_idx2 (p_pf p)) (Cconj b2 * k2)%C))%C))))
    else
      let basis_0 := insert_zero_to_basis_index state_idx (bit_width (p_bf p) - 1) in
      let basis_1 := N.lxor basis_0 (p_bf p) in
      RRd (false, basis_1) (fun b1 => RRd (true, basis_0) (fun k0 =>
      RRd (false, basis_0) (fun b0 => RRd (true, basis_1) (fun k1 =>
        RVal (p_coef p * (flipC (N.land basis_0 (p_pf p)) (Cconj b1 * k0 * phase90 (p_bf p) (p_pf p))%C
                          + flipC (N.land basis_1 (p_pf p)) (Cconj b0 * k1 * phase90 (p_bf p) (p_pf p))%C))%C)))).
  Definition op_transition (bra ket : state) (t : rtree (N * N)) : option C :=
    creduce (fun it => rrun (fun a => snd a <? D) (bra_ket bra ket) (op_trans_body it)) t.
End OperatorObservables.

(** * Batched states: one team per element b, on row b of the amplitudes.  Each team writes its own entry of the
    result. *)
Definition row (D : N) (flat : state) (b : N) : state := fun i => flat (b * D + i).
(** pauli_operator.cpp:176-244 *)
Definition pauli_expectation_batch (p : pauli) (D B : N) (flat : state) (trees : N -> rtree N) : list (option C) :=
  map (fun b => pauli_expectation p D (row D flat b) (trees b)) (seqN B).
(** pauli_operator.cpp:289-367 *)
Definition pauli_transition_batch (p : pauli) (D B : N) (bra ket : state) (trees : N -> rtree N) : list (option C) :=
  map (fun b => pauli_transition_batched p D D (row D bra b) (row D ket b) (trees b)) (seqN B).
(** operator.cpp:238-298 *)
Definition op_expectation_batch (o : operator) (D B : N) (flat : state) (trees : N -> rtree (N * N)) : list (option C) :=
  map (fun b => op_expectation o D (row D flat b) (trees b)) (seqN B).
(** operator.cpp:351-424 *)
Definition op_transition_batch (o : operator) (D B : N) (bra ket : state) (trees : N -> rtree (N * N)) : list (option C) :=
  map (fun b => op_transition o D (row D bra b) (row D ket b) (trees b)) (seqN B).
