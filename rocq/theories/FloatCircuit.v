(** Measurements and circuits with measurements in rounded arithmetic (C65).  See Circuit.v for the same functions on exact
    numbers, Float.v for the gates and FloatState.v for the numbers read from a state. *)
From Verif Require Export FloatState Circuit.
Open Scope N_scope.

Section FloatCircuit.
  Variable A : arith.
  Variable shape : rtree N -> Prop.
  Variable rnd64 : R -> R.   (* rounding to double, whatever the precision of the state is *)
  Variables (n L : N).   (* qubits, SIMD lanes *)
  Notation D := (2 ^ n).

  (** gate.hpp: update_quantum_state of an elementary gate; see Circuit.v, elem_update *)
  Definition f_elem_update (g : egate) : host world unit := p <~ hlift (f_update_plan A n D L g);; hplan D p.
  (** gate_measurement.cpp:22-41; the zero probability is converted to double, which is exact.  hbernoulli: a
      probability outside [0,1] violates the precondition of std::bernoulli_distribution. *)
  Definition f_apply_measurement_update (t : N) (reset : bool) : host world bool :=
    zero_probability <~ f_get_zero_probability A shape n (ctz t);;
    measured_zero <~ hbernoulli zero_probability;;
    hkernel n (f_std1_kernel A n D L (if measured_zero then GP0 else GP1) t 0 0);~
    f_normalize A shape n;~
    (if reset && negb measured_zero then hkernel n (f_std1_kernel A n D L GX t 0 0) else hret tt);~
    hret measured_zero.
  (** gate_measurement.cpp:46-58 *)
  Definition f_measurement_update (t bit : N) (reset : bool) : host world unit :=
    hcheck (within_bounds n (GBase t 0 0));~
    r <~ hget w_reg;;
    hcheck (negb (N.of_nat (length r) <=? bit));~
    measured_zero <~ f_apply_measurement_update t reset;;
    write_bit bit (negb measured_zero).
  (** gate_probabilistic.cpp:72-74, param_gate_probabilistic.cpp:94-96 std::partial_sum on doubles: the first element is copied *)
  Fixpoint f_partial_sums_from (acc : R) (l : list R) : list R :=
    match l with [] => [] | d :: r => let s := rnd64 (acc + d)%R in s :: f_partial_sums_from s r end.
  Definition f_partial_sums (l : list R) : list R := match l with [] => [] | d :: r => d :: f_partial_sums_from d r end.
  (** gate_probabilistic.cpp:7-16, param_gate_probabilistic.cpp:10-19; rounding is monotone, so the sums are sorted as
      std::ranges::upper_bound asks *)
  Definition f_select_index (dist : list R) (r : R) : N :=
    let cum := 0%R :: f_partial_sums dist in N.min (upper_bound cum r - 1) (N.of_nat (length cum) - 2).
  (** gate_probabilistic.cpp:104-109; see Circuit.v, cgate_update *)
  Fixpoint f_cgate_update (g : cgate) : host world unit :=
    match g with
    | CElem (_, g) => f_elem_update g
    | CMeas t bit reset => f_measurement_update t bit reset
    | CProb _ dist gs => r <~ hdraw;; nth (N.to_nat (f_select_index dist r)) (map f_cgate_update gs) hundefined
    end.
  (** param_gate_standard.cpp:22-31, param_gate_pauli.cpp:31-42: this->_pcoef * static_cast<Float<Prec>>(param).
      The conversion of the double is one rounding. *)
  Definition f_angle (pcoef param : R) : R := a_rnd A (pcoef * a_rnd A param)%R.
  (** param_gate_probabilistic.cpp:126-136; see Circuit.v, pgate_update *)
  Fixpoint f_pgate_update (g : pgate) (param : R) : host world unit :=
    match g with
    | PRot _ k b pcoef => f_elem_update (EStd (rot_std k (f_angle pcoef param)) b)
    | PPauliRotation _ b p pcoef =>
      hcheck (within_bounds n b);~
      hkernel n (f_apply_pauli_rotation A D (g_c b) (g_cv b) (p_bf p) (p_pf p) (f_entry A (p_coef p)) (f_angle pcoef param))
    | PProb _ dist gs =>
      r <~ hdraw;;
      nth (N.to_nat (f_select_index dist r))
          (map (fun g => match g with inl g => f_cgate_update g | inr g => f_pgate_update g param end) gs) hundefined
    end.
  Variable ps : params.
  (** circuit.cpp:93-140; see Circuit.v, run_items *)
  Definition f_item_update (i : citem) : host world unit :=
    match i with IGate g => f_cgate_update g | IParam g key => v <~ hlift (opt_res (ps key));; f_pgate_update g v end.
  Definition f_guarded_update (i : citem) (mask : N) : host world N :=
    hcheck (N.land mask (item_mask i) =? 0);~
    f_item_update i;~
    hret (mark_measured i mask).
  Fixpoint f_run_items (l : list citem) (fs : list (option cond)) (mask : N) : host world unit :=
    match l, fs with
    | [], _ => hret tt
    | i :: r, f :: fs' =>
      go <~ checked_cond f;;
      if go then mask' <~ f_guarded_update i mask;; f_run_items r fs' mask' else f_run_items r fs' mask
    | _ :: _, [] => hundefined
    end.
  Definition f_circuit_update (c : circuit) : host world unit :=
    hcheck (required_n_qubits c <=? n);~
    hcheck (forallb (fun k => match ps k with Some _ => true | None => false end) (keys c));~
    f_run_items (c_gates c) (c_conds c) 0.
End FloatCircuit.
