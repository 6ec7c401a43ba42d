(** Numbers read from a state, in rounded arithmetic (C63): norms, probabilities, inner products, expectation values,
    normalize() and sampling().  See State.v and Operator.v for the same functions on exact numbers, and Float.v for the
    number types.

    A parallel_reduce adds with rounding, so its result depends on the tree of additions (Reduce.v). *)
From Verif Require Export Float State Operator.
Open Scope N_scope.

(** The longest chain of additions an iteration goes through *)
Fixpoint tree_height {I} (t : rtree I) : nat :=
  match t with
  | RLeaf l => length l
  | RJoin a b => S (Nat.max (tree_height a) (tree_height b))
  end.
(** A parallel_reduce none of whose chains of additions is longer than h *)
Definition shallow (h : nat) (t : rtree N) : Prop := (tree_height t <= h)%nat.
(** Kokkos::Serial: one accumulator, the iterations in order *)
Definition in_order (t : rtree N) : Prop := exists k, t = RLeaf (seqN k).
(** Kokkos::parallel_reduce over [iters] iterations that read the D amplitudes; [shape] describes the trees of the
    execution space.  See Host.v, hsum. *)
Definition f_hsum {T} (shape : rtree N -> Prop) (zero : T) (add : T -> T -> T) (D iters : N) (f : N -> rprog C N T) : host world T := fun w o =>
  exists t, reduction_of (seqN iters) t /\ shape t /\
    o = match reduce zero add (fun i => rrun (fun a => a <? D) (w_amp w) (f i)) t with
        | Some v => HDone v w
        | None => HUndefined
        end.

Section FloatState.
  Variable A : arith.
  Variable shape : rtree N -> Prop.
  Notation rnd := (a_rnd A).
  Definition f_plus (a b : R) : R := rnd (a + b)%R.
  (** utility.hpp:174-177 squared_norm *)
  Definition f_norm2 (z : C) : R := two_products A Rplus 0 (fst z) (fst z) (snd z) (snd z).
  Definition f_read_norm (a : N) : rprog C N R := RRd a (fun v => RVal (f_norm2 v)).
  Definition f_sum_R (D iters : N) (f : N -> rprog C N R) : host world R := f_hsum shape 0%R f_plus D iters f.

  Section Single.
    Variable n : N.
    Notation D := (2 ^ n).
    (** state_vector.cpp:109-119; FloatType norm *)
    Definition f_get_squared_norm : host world R := f_sum_R D D f_read_norm.
    (** state_vector.cpp:120-127: the square root is rounded correctly (IEEE 754), the quotients too.  Division by zero
        yields infinities and NaN, which the reals do not have. *)
    Definition f_normalize : host world unit :=
      s <~ f_get_squared_norm;;
      let norm := rnd (sqrt (rnd s)) in
      if Req_EM_T norm 0 then hundefined
      else one_kernel D (fun it => Rd it (fun v => Wr it (rnd (fst v / norm), rnd (snd v / norm)) Ret)).
    (** state_vector.cpp:128-146 *)
    Definition f_get_zero_probability (q : N) : host world R :=
      if n <=? q then hthrow
      else f_sum_R D (N.shiftr D 1) (fun i => f_read_norm (insert_zero_to_basis_index i q)).
    (** state_vector.cpp:147-189 *)
    Definition f_get_marginal_probability (vs : list N) : host world R :=
      if negb (N.of_nat (length vs) =? n) then hthrow
      else ts <~ hlift (measured_targets 0 vs);;
           f_sum_R D (N.shiftr D (N.of_nat (length ts))) (fun i => f_read_norm (fold_left insert_measured ts i)).
    (** state_vector.cpp:341-348, utility.hpp:106-120; conj is exact *)
    Definition f_inner_product (n2 : N) (other : state) : host world C :=
      if negb (D =? 2 ^ n2) then hthrow
      else f_hsum shape C0 (f_add A) D D (fun i => RRd i (fun a => RVal (f_mul A 0 (Cconj a) (other i)))).

    (** state_vector.cpp:226-236: parallel_scan.  The range is divided into consecutive chunks, one per thread (Serial:
        a single chunk); a first pass adds up every chunk from zero, the totals are added up in order to the offset of
        every chunk, and a second pass adds the elements of a chunk to its offset one by one (OpenMP; scans inside
        the blocks of a GPU are not modelled). *)
    Fixpoint running (psi : state) (sum : R) (l : list N) : list R :=
      match l with
      | [] => []
      | i :: r => let sum := f_plus sum (f_norm2 (psi i)) in sum :: running psi sum r
      end.
    Definition chunk_total (psi : state) (l : list N) : R := fold_left (fun sum i => f_plus sum (f_norm2 (psi i))) l 0%R.
    Fixpoint f_scan (psi : state) (offset : R) (chunks : list (list N)) : list R :=
      match chunks with
      | [] => []
      | c :: r => running psi offset c ++ f_scan psi (f_plus offset (chunk_total psi c)) r
      end.
    Definition f_stacked (chunks : list (list N)) (psi : state) (i : N) : R := nth (N.to_nat i) (0%R :: f_scan psi 0%R chunks) 0%R.
    (** state_vector.cpp:237-277: the number drawn is converted to the type *)
    Definition f_choose (chunks : list (list N)) (psi : state) (r : R) : N :=
      bsearch (N.to_nat (D + 1)) (f_stacked chunks psi) (rnd r) 0 (D + 1).
    Definition f_sampling (chunks : list (list N)) (psi : state) (count : N) (rounds : list (N -> R)) : option (list N) :=
      match sampling_loop n N.eqb (fun _ => f_choose chunks psi) rounds (seqN count) (fun _ => 0) with
      | Some r => Some (map r (seqN count))
      | None => None
      end.
  End Single.

  (** complex.hpp:79-93 a complex number times a real one *)
  Definition f_times (z : C) (r : R) : C := (rnd (fst z * r)%R, rnd (snd z * r)%R).
  Section Observables.
    Variable D : N.
    (** real(conj(v) * v) and real(v0 * conj(v1) * global_phase * 2), where [place] numbers the multiplications *)
    Definition f_diag (place : N) (v : C) : R := fst (f_mul A place (Cconj v) v).
    Definition f_pair (place : N) (v0 v1 phase : C) : R := fst (f_times (f_mul A (place + 1) (f_mul A place v0 (Cconj v1)) phase) 2).
    (** pauli_operator.cpp:135-175; the members of PauliOperator are numbers of the type *)
    Definition f_expect_diag (p : pauli) (state_idx : N) : rprog C N R :=
      RRd state_idx (fun v => RVal (flipR (N.land state_idx (p_pf p)) (f_diag 0 v))).
    Definition f_expect_pair (p : pauli) (state_idx : N) : rprog C N R :=
      let basis_0 := insert_zero_to_basis_index state_idx (bit_width (p_bf p) - 1) in
      let basis_1 := N.lxor basis_0 (p_bf p) in
      RRd basis_0 (fun v0 => RRd basis_1 (fun v1 =>
        RVal (flipR (N.land basis_0 (p_pf p)) (f_pair 0 v0 v1 (phase90 (p_bf p) (p_pf p)))))).
    Definition f_pauli_expectation (p : pauli) (psi : state) (t : rtree N) : option C :=
      option_map (fun r => f_times (p_coef p) r)
        (reduce 0%R f_plus (fun i => rrun (fun a => a <? D) psi (if p_bf p =? 0 then f_expect_diag p i else f_expect_pair p i)) t).
    (** operator.cpp:116-160 *)
    Definition f_op_expect_body (o : operator) (it : N * N) : rprog C N C :=
      let p := term o (fst it) in
      let state_idx := snd it in
      if p_bf p =? 0 then
        let state_idx1 := shl64 state_idx 1 in
        let state_idx2 := N.lor state_idx1 1 in
        RRd state_idx1 (fun v1 => RRd state_idx2 (fun v2 =>
          RVal (f_times (p_coef p) (f_plus (flipR (N.land state_idx1 (p_pf p)) (f_diag 0 v1))
                                           (flipR (N.land state_idx2 (p_pf p)) (f_diag 1 v2))))))
      else
        let basis_0 := insert_zero_to_basis_index state_idx (bit_width (p_bf p) - 1) in
        let basis_1 := N.lxor basis_0 (p_bf p) in
        RRd basis_0 (fun v0 => RRd basis_1 (fun v1 =>
          RVal (f_times (p_coef p) (flipR (N.land basis_0 (p_pf p)) (f_pair 2 v0 v1 (phase90 (p_bf p) (p_pf p))))))).
    Definition f_op_expectation (o : operator) (psi : state) (t : rtree (N * N)) : option C :=
      reduce C0 (f_add A) (fun it => rrun (fun a => a <? D) psi (f_op_expect_body o it)) t.
  End Observables.
End FloatState.
