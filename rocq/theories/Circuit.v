(** Measurement, probabilistic and parametric gates (src/gate/gate_measurement.cpp, gate_probabilistic.cpp,
    param_gate_standard.cpp, param_gate_pauli.cpp, param_gate_probabilistic.cpp) and circuits
    (src/circuit/circuit.cpp, include/scaluq/circuit/circuit.hpp).  Floating point numbers are exact reals, so
    the std::isfinite checks always succeed. *)
From Coq Require Export String.
From Verif Require Export State Merge.
Open Scope N_scope.
Open Scope list_scope.

(** * Gates *)

(** A Gate<Prec>.  [known] is the GateType next to the pointer, as in [tgate]: false is GateType::Unknown.  A
    measurement gate has no inverse, so its type is always visible. *)
Inductive cgate : Type :=
| CElem (g : tgate)
| CMeas (target_mask classical_bit : N) (reset : bool)
| CProb (known : bool) (distribution : list R) (gates : list cgate).

(** A ParamGate<Prec> *)
Inductive rot : Type := RotX | RotY | RotZ.
Inductive pgate : Type :=
| PRot (known : bool) (k : rot) (b : base) (pcoef : R)
| PPauliRotation (known : bool) (b : base) (p : pauli) (pcoef : R)
| PProb (known : bool) (distribution : list R) (gates : list (cgate + pgate)).

(** the non-parametric gate with the same kernel: rx_gate, ry_gate, rz_gate *)
Definition rot_std (k : rot) (angle : R) : std1 :=
  match k with RotX => GRX angle | RotY => GRY angle | RotZ => GRZ angle end.

(** ** Operands *)

(** gate.hpp operand_qubit_mask; gate_probabilistic.hpp:54-58 *)
Definition base_operands (b : base) : N := N.lor (g_t b) (g_c b).
Fixpoint operand_mask (g : cgate) : N :=
  match g with
  | CElem (_, g) => base_operands (g_base g)
  | CMeas t _ _ => t
  | CProb _ _ gs => fold_left (fun m g => N.lor m (operand_mask g)) gs 0
  end.
(** param_gate.hpp operand_qubit_mask; param_gate_probabilistic.hpp:58-66 *)
Fixpoint poperand_mask (g : pgate) : N :=
  match g with
  | PRot _ _ b _ | PPauliRotation _ b _ _ => base_operands b
  | PProb _ _ gs => fold_left (fun m g => N.lor m (match g with inl g => operand_mask g | inr g => poperand_mask g end)) gs 0
  end.
(** target_qubit_list and control_qubit_list; the probabilistic gates throw (gate_probabilistic.hpp:22-31) *)
Definition c_target_list (g : cgate) : res (list N) :=
  match g with CElem (_, g) => Ok (gate_target_list g) | CMeas t _ _ => Ok (mask_to_vector t) | CProb _ _ _ => Throw end.
Definition c_control_list (g : cgate) : res (list N) :=
  match g with CElem (_, g) => Ok (gate_control_list g) | CMeas _ _ _ => Ok (mask_to_vector 0) | CProb _ _ _ => Throw end.
Definition p_target_list (g : pgate) : res (list N) :=
  match g with PRot _ _ b _ | PPauliRotation _ b _ _ => Ok (mask_to_vector (g_t b)) | PProb _ _ _ => Throw end.
Definition p_control_list (g : pgate) : res (list N) :=
  match g with PRot _ _ b _ | PPauliRotation _ b _ _ => Ok (mask_to_vector (g_c b)) | PProb _ _ _ => Throw end.

(** ** Construction *)

(** gate_factory.hpp:177-183, gate_measurement.hpp:18-21 *)
Definition make_measurement (target classical_bit : N) (reset : bool) : res cgate :=
  t <- vector_to_mask [target] ;; b <- make_base t 0 0 ;; Ok (CMeas (g_t b) classical_bit reset).

(** a probabilistic gate seen as pairs; the two vectors always have the same length *)
Fixpoint flatten_probabilistic_gate (prob_prefix : R) (g : cgate) : res (list (R * cgate)) :=
  match g with
  | CMeas _ _ _ => Throw
  | CProb true dist gs =>
    (* gate_probabilistic.cpp:33-41 *)
    (fix go (ds : list R) (gs : list cgate) {struct gs} : res (list (R * cgate)) :=
       match ds, gs with
       | d :: ds', g :: gs' => l <- flatten_probabilistic_gate (prob_prefix * d) g ;; r <- go ds' gs' ;; Ok (l ++ r)
       | [], _ => Ok []
       | _ :: _, [] => UB
       end) dist gs
  | _ => Ok [(prob_prefix, g)]
  end.
(** gate_probabilistic.cpp:45-78: the loop over the arguments *)
Fixpoint flatten_all {G} (flat : R -> G -> res (list (R * G))) (dist : list R) (gs : list G) : res (list (R * G)) :=
  match dist, gs with
  | d :: ds, g :: gs' => l <- flat d g ;; r <- flatten_all flat ds gs' ;; Ok (l ++ r)
  | _, _ => Ok []
  end.
(** std::partial_sum into [1..], [0] being 0 *)
Fixpoint partial_sums (acc : R) (l : list R) : list R := match l with [] => [] | d :: r => (acc + d)%R :: partial_sums (acc + d)%R r end.
Definition cumulative_distribution (dist : list R) : list R := 0%R :: partial_sums 0 dist.
Definition in_unit (p : R) : bool := if Rlt_dec p 0 then false else if Rlt_dec 1 p then false else true.
Definition sum_is_one (cum : list R) : bool := if Rlt_dec (/ 10 ^ 6) (Rabs (last cum 0%R - 1)) then false else true.
Definition probabilistic_impl {G} (flat : R -> G -> res (list (R * G))) (dist : list R) (gs : list G) : res (list R * list G) :=
  if (length dist =? 0)%nat then Throw
  else if negb (length dist =? length gs)%nat then Throw
  else if negb (forallb in_unit dist) then Throw
  else
    l <- flatten_all flat dist gs ;;
    if sum_is_one (cumulative_distribution (map fst l)) then Ok (map fst l, map snd l) else Throw.
Definition make_probabilistic (dist : list R) (gs : list cgate) : res cgate :=
  x <- probabilistic_impl flatten_probabilistic_gate dist gs ;; Ok (CProb true (fst x) (snd x)).

(** param_gate_probabilistic.cpp:21-60 *)
Fixpoint flatten_non_param (prob_prefix : R) (g : cgate) : res (list (R * (cgate + pgate))) :=
  match g with
  | CMeas _ _ _ => Throw
  | CProb true dist gs =>
    (fix go (ds : list R) (gs : list cgate) {struct gs} : res (list (R * (cgate + pgate))) :=
       match ds, gs with
       | d :: ds', g :: gs' => l <- flatten_non_param (prob_prefix * d) g ;; r <- go ds' gs' ;; Ok (l ++ r)
       | [], _ => Ok []
       | _ :: _, [] => UB
       end) dist gs
  | _ => Ok [(prob_prefix, inl g)]
  end.
Fixpoint flatten_param (prob_prefix : R) (g : pgate) : res (list (R * (cgate + pgate))) :=
  match g with
  | PProb true dist gs =>
    (fix go (ds : list R) (gs : list (cgate + pgate)) {struct gs} : res (list (R * (cgate + pgate))) :=
       match ds, gs with
       | d :: ds', g :: gs' =>
         l <- match g with inl g => flatten_non_param (prob_prefix * d) g | inr g => flatten_param (prob_prefix * d) g end ;;
         r <- go ds' gs' ;; Ok (l ++ r)
       | [], _ => Ok []
       | _ :: _, [] => UB
       end) dist gs
  | _ => Ok [(prob_prefix, inr g)]
  end.
Definition flatten_param_probabilistic_gate (prob_prefix : R) (g : cgate + pgate) : res (list (R * (cgate + pgate))) :=
  match g with inl g => flatten_non_param prob_prefix g | inr g => flatten_param prob_prefix g end.
(** param_gate_probabilistic.cpp:64-100 *)
Definition make_param_probabilistic (dist : list R) (gs : list (cgate + pgate)) : res pgate :=
  x <- probabilistic_impl flatten_param_probabilistic_gate dist gs ;; Ok (PProb true (fst x) (snd x)).

(** param_gate_factory.hpp:18-67 *)
Inductive pcall : Type :=
| PCallRot (k : rot) (target : N) (pcoef : R) (controls control_values : list N)
| PCallPauliRotation (p : pauli) (pcoef : R) (controls control_values : list N).
Definition make_param (vf : bool) (k : pcall) : res pgate :=
  match k with
  | PCallRot k t pcoef cs vs =>
    vs <- resize_and_check_control_values cs vs ;;
    m <- mask_args vf (vector_to_mask [t]) cs vs ;;
    let '(t, c, cv) := m in
    b <- make_base t c cv ;; Ok (PRot true k b pcoef)
  | PCallPauliRotation p pcoef cs vs =>
    vs <- resize_and_check_control_values cs vs ;;
    m <- mask_args vf (Ok 0) cs vs ;;
    let '(_, c, cv) := m in
    b <- make_pauli_base p c cv ;; Ok (PPauliRotation true b p pcoef)
  end.
(** gate_factory.hpp:413-435 *)
Definition noise1 (vf : bool) (k : std1) (target : N) : res cgate := g <- make vf (Call1 k target [] []) ;; Ok (CElem (true, g)).
Definition noise_I : cgate := CElem (true, EI).
Definition make_bit_flip (vf : bool) (target : N) (p : R) : res cgate :=
  x <- noise1 vf GX target ;; make_probabilistic [p; 1 - p]%R [x; noise_I].
Definition make_dephasing (vf : bool) (target : N) (p : R) : res cgate :=
  z <- noise1 vf GZ target ;; make_probabilistic [p; 1 - p]%R [z; noise_I].
Definition make_bit_flip_and_dephasing (vf : bool) (target : N) (p : R) : res cgate :=
  y <- noise1 vf GY target ;; x <- noise1 vf GX target ;; z <- noise1 vf GZ target ;;
  make_probabilistic [p * p; p * (1 - p); p * (1 - p); (1 - p) * (1 - p)]%R [y; x; z; noise_I].
Definition make_depolarizing (vf : bool) (target : N) (p : R) : res cgate :=
  x <- noise1 vf GX target ;; y <- noise1 vf GY target ;; z <- noise1 vf GZ target ;;
  make_probabilistic [p / 3; p / 3; p / 3; 1 - p]%R [x; y; z; noise_I].

(** ** Inverses: the result is a pointer to GateBase, whose type is Unknown *)
Definition mapR {A B} (f : A -> res B) : list A -> res (list B) :=
  fix go (l : list A) : res (list B) := match l with [] => Ok [] | x :: r => y <- f x ;; ys <- go r ;; Ok (y :: ys) end.
(** gate_measurement.hpp:26-29, gate_probabilistic.cpp:80-87 *)
Fixpoint c_inverse (g : cgate) : res cgate :=
  match g with
  | CElem (_, g) => g' <- get_inverse g ;; Ok (CElem (false, g'))
  | CMeas _ _ _ => Throw
  | CProb _ dist gs =>
    gs' <- mapR c_inverse gs ;;
    x <- probabilistic_impl flatten_probabilistic_gate dist gs' ;; Ok (CProb false (fst x) (snd x))
  end.
(** param_gate_standard.hpp:16-19, 58-61, 100-103; param_gate_pauli.hpp:31-34 *)
Fixpoint p_inverse (g : pgate) : res pgate :=
  match g with
  | PRot _ k b pcoef => Ok (PRot false k b (- pcoef))
  | PPauliRotation _ b p pcoef => Ok (PPauliRotation false b p (- pcoef))
  | PProb _ dist gs =>
    gs' <- mapR (fun g => match g with inl g => g' <- c_inverse g ;; Ok (inl g') | inr g => g' <- p_inverse g ;; Ok (inr g') end) gs ;;
    x <- probabilistic_impl flatten_param_probabilistic_gate dist gs' ;; Ok (PProb false (fst x) (snd x))
  end.

(** ** Updating one state *)

(** std::bernoulli_distribution(p): p outside [0,1] violates its precondition *)
Definition hbernoulli (p : R) : host world bool :=
  if Rle_dec 0 p then if Rle_dec p 1 then u <~ hdraw;; hret (if Rlt_dec u p then true else false) else hundefined else hundefined.
(** std::ranges::upper_bound on a sorted range: the number of elements before the first one greater than r *)
Fixpoint upper_bound (l : list R) (r : R) : N :=
  match l with [] => 0 | x :: l' => if Rlt_dec r x then 0 else 1 + upper_bound l' r end.
(** gate_probabilistic.cpp:7-16, param_gate_probabilistic.cpp:10-19 *)
Definition select_index (dist : list R) (r : R) : N :=
  let cum := cumulative_distribution dist in
  N.min (upper_bound cum r - 1) (N.of_nat (length cum) - 2).

Section Update.
  Variables (n L : N).   (* qubits, SIMD lanes *)
  Notation D := (2 ^ n).

  Definition elem_update (g : egate) : host world unit := p <~ hlift (update_plan n D L g);; hplan D p.
  (** a kernel on the whole state *)
  Definition hkernel (k : kernel N) : host world unit := hplan D (InPlace [k]).
  (** gate_measurement.cpp:22-41 *)
  Definition apply_measurement_update (t : N) (reset : bool) : host world bool :=
    zero_probability <~ get_zero_probability n (ctz t);;
    measured_zero <~ hbernoulli zero_probability;;
    hkernel (std1_kernel n D L (if measured_zero then GP0 else GP1) t 0 0);~
    normalize n;~
    (if reset && negb measured_zero then hkernel (std1_kernel n D L GX t 0 0) else hret tt);~
    hret measured_zero.
  Definition write_bit (bit : N) (v : bool) : host world unit :=
    r <~ hget w_reg;; r' <~ hlift (reg_write r bit v);; hmodify (set_reg r').
  (** gate_measurement.cpp:46-58 *)
  Definition measurement_update (t bit : N) (reset : bool) : host world unit :=
    hcheck (within_bounds n (GBase t 0 0));~
    r <~ hget w_reg;;
    hcheck (negb (N.of_nat (length r) <=? bit));~
    measured_zero <~ apply_measurement_update t reset;;
    write_bit bit (negb measured_zero).
  (** gate_probabilistic.cpp:104-109 *)
  Fixpoint cgate_update (g : cgate) : host world unit :=
    match g with
    | CElem (_, g) => elem_update g
    | CMeas t bit reset => measurement_update t bit reset
    | CProb _ dist gs => r <~ hdraw;; nth (N.to_nat (select_index dist r)) (map cgate_update gs) hundefined
    end.
  (** param_gate_standard.cpp:22-31, param_gate_pauli.cpp:31-42, param_gate_probabilistic.cpp:126-136 *)
  Fixpoint pgate_update (g : pgate) (param : R) : host world unit :=
    match g with
    | PRot _ k b pcoef => elem_update (EStd (rot_std k (pcoef * param)) b)
    | PPauliRotation _ b p pcoef =>
      hcheck (within_bounds n b);~
      hkernel (apply_pauli_rotation D (g_c b) (g_cv b) (p_bf p) (p_pf p) (p_coef p) (pcoef * param))
    | PProb _ dist gs =>
      r <~ hdraw;;
      nth (N.to_nat (select_index dist r))
          (map (fun g => match g with inl g => cgate_update g | inr g => pgate_update g param end) gs) hundefined
    end.
End Update.

(** ** Updating a batch *)

(** The amplitudes of the B states one after the other, their registers, the random engine. *)
Record bworld : Type := BWorld { bw_amp : state; bw_regs : breg; bw_rand : nat -> R }.

Section Batched.
  Variables (n B L : N).
  Notation D := (B * 2 ^ n).

  (** a program on the whole array *)
  Definition hflat {T} (p : host world T) : host bworld T := fun w o =>
    exists o1, p (World (bw_amp w) None [] (bw_rand w)) o1 /\
      o = match o1 with
          | HDone t w1 => HDone t (BWorld (w_amp w1) (bw_regs w) (w_rand w1))
          | HThrown w1 => HThrown (BWorld (w_amp w1) (bw_regs w) (w_rand w1))
          | HUndefined => HUndefined
          end.
  (** states.view_state_vector_at(b) (state_vector_batched.cpp: a subview of row b) with register b: a program
      on one state whose writes go to the row until its buffer is replaced. *)
  Definition put_row (b : N) (row amp : state) : state := fun a => if a / 2 ^ n =? b then row (a mod 2 ^ n) else amp a.
  Definition after_view (b : N) (w : bworld) (w1 : world) : bworld :=
    BWorld (put_row b (match w_home w1 with Some h => h | None => w_amp w1 end) (bw_amp w))
           (breg_set (bw_regs w) b (w_reg w1)) (w_rand w1).
  Definition on_view {T} (b : N) (p : host world T) : host bworld T := fun w o =>
    match breg_get (bw_regs w) b with
    | Ok reg =>
      exists o1, p (World (fun i => bw_amp w (at_row n b i)) None reg (bw_rand w)) o1 /\
        o = match o1 with
            | HDone t w1 => HDone t (after_view b w w1)
            | HThrown w1 => HThrown (after_view b w w1)
            | HUndefined => HUndefined
            end
    | Throw => o = HThrown w
    | UB => o = HUndefined
    end.
  Fixpoint hfor (l : list N) (f : N -> host bworld unit) : host bworld unit :=
    match l with [] => hret tt | b :: r => f b;~ hfor r f end.

  Definition b_elem_update (g : egate) : host bworld unit := hflat (p <~ hlift (update_plan n D L g);; hplan D p).
  (** gate_measurement.cpp:60-79 *)
  Definition b_measurement_update (t bit : N) (reset : bool) : host bworld unit :=
    hcheck (within_bounds n (GBase t 0 0));~
    regs <~ hget bw_regs;;
    hcheck (N.of_nat (length (br_regs regs)) =? B);~
    hcheck (negb (br_size regs <=? bit));~
    hfor (seqN B) (fun b => on_view b (
      measured_zero <~ apply_measurement_update n L t reset;; write_bit bit (negb measured_zero))).
  (** gate_probabilistic.cpp:110-118 *)
  Definition b_cgate_update (g : cgate) : host bworld unit :=
    match g with
    | CElem (_, g) => b_elem_update g
    | CMeas t bit reset => b_measurement_update t bit reset
    | CProb _ _ _ => hfor (seqN B) (fun b => on_view b (cgate_update n L g))
    end.

  (** A loop over teams of m threads: team b runs [body b it] for it < m on row b.  An access that leaves the
      row is an access outside the array. *)
  Fixpoint in_row (b : N) (p : prog C N) : prog C N :=
    let addr a := if a <? 2 ^ n then at_row n b a else D in
    match p with
    | Ret => Ret
    | Rd a k => Rd (addr a) (fun v => in_row b (k v))
    | Wr a v q => Wr (addr a) v (in_row b q)
    end.
  Definition row_kernel (k : N -> kernel N) : kernel N :=
    let m := k_iters (k 0) in
    Kernel (B * m) (fun w => in_row (w / m) (k_body (k (w / m)) (w mod m))).
  (** update_ops_standard.cpp:84-120, 133-167, 181-216 *)
  Definition b_rot_kernel (k : rot) (t c cv : N) (angle : N -> R) : kernel N :=
    row_kernel (fun b =>
      let cosval := RtoC (cos (angle b / 2)) in
      let sinval := RtoC (sin (angle b / 2)) in
      match k with
      | RotX => one_target_dense_matrix_gate_scalar (2 ^ n) t c cv
                  (mat2 cosval (0, - sin (angle b / 2))%R (0, - sin (angle b / 2))%R cosval)
      | RotY => one_target_dense_matrix_gate_scalar (2 ^ n) t c cv (mat2 cosval (- sinval)%C sinval cosval)
      | RotZ => one_target_diagonal_matrix_gate (2 ^ n) t c cv
                  (cos (angle b / 2), - sin (angle b / 2))%R (cos (angle b / 2), sin (angle b / 2))%R
      end).
  (** apply_pauli.hpp:233-295: bit_flip_mask decides the number of threads of every team *)
  Definition b_pauli_rotation_kernel (c cv : N) (p : pauli) (angle : N -> R) : kernel N :=
    row_kernel (fun b => apply_pauli_rotation (2 ^ n) c cv (p_bf p) (p_pf p) (p_coef p) (angle b)).
  Definition b_kernel (k : kernel N) : host bworld unit := hflat (hplan D (InPlace [k])).
  (** params[b]; reading past the end of the vector is undefined *)
  Definition param_at (params : list R) (b : N) : R := nth (N.to_nat b) params 0%R.
  Definition params_fit (params : list R) : host bworld unit :=
    if B <=? N.of_nat (length params) then hret tt else hundefined.
  (** param_gate_standard.cpp:33-52, param_gate_pauli.cpp:44-64, param_gate_probabilistic.cpp:137-148 *)
  Definition b_pgate_update (g : pgate) (params : list R) : host bworld unit :=
    match g with
    | PRot _ k b pcoef =>
      hcheck (within_bounds n b);~ params_fit params;~
      b_kernel (b_rot_kernel k (g_t b) (g_c b) (g_cv b) (fun e => param_at params e * pcoef)%R)
    | PPauliRotation _ b p pcoef =>
      hcheck (within_bounds n b);~ params_fit params;~
      b_kernel (b_pauli_rotation_kernel (g_c b) (g_cv b) p (fun e => pcoef * param_at params e)%R)
    | PProb _ _ _ =>
      hfor (seqN B) (fun b =>
        match nth_error params (N.to_nat b) with
        | Some v => on_view b (pgate_update n L g v)
        | None => hundefined
        end)
    end.
End Batched.

(** * Circuits *)

(** circuit.hpp:27: std::function<bool(const ClassicalRegister&)>; it may throw *)
Definition cond : Type := list bool -> res bool.
(** circuit.hpp:32: Gate or (ParamGate, key) *)
Inductive citem : Type := IGate (g : cgate) | IParam (g : pgate) (key : string).
(** circuit.hpp:221-222 *)
Record circuit : Type := Circuit { c_gates : list citem; c_conds : list (option cond) }.
Definition c_new : circuit := Circuit [] [].
(** circuit.hpp:67-101 *)
Definition add_gate (c : circuit) (g : cgate) : circuit := Circuit (c_gates c ++ [IGate g]) (c_conds c ++ [None]).
Definition add_param_gate (c : circuit) (g : pgate) (key : string) : circuit :=
  Circuit (c_gates c ++ [IParam g key]) (c_conds c ++ [None]).
(** _classical_conditions.back() = condition *)
Definition set_back {T} (l : list T) (x : T) : list T := removelast l ++ [x].
Definition add_conditional_gate (c : circuit) (g : cgate) (f : cond) : circuit :=
  let c' := add_gate c g in Circuit (c_gates c') (set_back (c_conds c') (Some f)).
Definition add_conditional_param_gate (c : circuit) (g : pgate) (key : string) (f : cond) : circuit :=
  let c' := add_param_gate c g key in Circuit (c_gates c') (set_back (c_conds c') (Some f)).
(** reg[i] == expected *)
Definition bit_cond (i : N) (expected : bool) : cond := fun reg => b <- reg_read reg i ;; Ok (Bool.eqb b expected).
(** circuit.cpp:51-75: the condition vector is appended after the gate vector *)
Definition add_circuit (c d : circuit) : circuit := Circuit (c_gates c ++ c_gates d) (c_conds c ++ c_conds d).
(** circuit.cpp:295-307 *)
Definition circuit_copy (c : circuit) : circuit := Circuit (c_gates c) (c_conds c).
(** circuit.cpp:309-326 *)
Definition item_inverse (i : citem) : res citem :=
  match i with IGate g => g' <- c_inverse g ;; Ok (IGate g') | IParam g key => g' <- p_inverse g ;; Ok (IParam g' key) end.
Definition circuit_inverse (c : circuit) : res circuit :=
  gs <- mapR item_inverse (rev (c_gates c)) ;; Ok (Circuit gs (rev (c_conds c))).

Definition item_mask (i : citem) : N := match i with IGate g => operand_mask g | IParam g _ => poperand_mask g end.
(** circuit.cpp:625-633 *)
Definition required_n_qubits (c : circuit) : N := bit_width (fold_left (fun m i => N.lor m (item_mask i)) (c_gates c) 0).
(** circuit.cpp:644-653 *)
Definition has_classical_instructions (c : circuit) : bool :=
  existsb (fun f => match f with Some _ => true | None => false end) (c_conds c) ||
  existsb (fun i => match i with IGate (CMeas _ _ _) => true | _ => false end) (c_gates c).
(** circuit.cpp:9-16: the keys in the order of the gates (the set sorts them) *)
Definition keys (c : circuit) : list string :=
  flat_map (fun i => match i with IGate _ => [] | IParam _ key => [key] end) (c_gates c).

(** circuit.cpp:18-49 calculate_depth *)
Definition item_controls (i : citem) : res (list N) := match i with IGate g => c_control_list g | IParam g _ => p_control_list g end.
Definition item_targets (i : citem) : res (list N) := match i with IGate g => c_target_list g | IParam g _ => p_target_list g end.
Definition max_step (filled : N -> N) (qs : list N) (m : N) : N := fold_left (fun m q => if m <? filled q then filled q else m) qs m.
Definition fill (qs : list N) (v : N) (filled : N -> N) : N -> N := fold_left (fun f q => upd N.eqb f q v) qs filled.
Definition depth_step (i : citem) (filled : N -> N) : res (N -> N) :=
  cs <- item_controls i ;;
  ts <- item_targets i ;;
  let m := max_step filled ts (max_step filled cs 0) in
  Ok (fill ts (m + 1) (fill cs (m + 1) filled)).
Fixpoint depth_loop (l : list citem) (filled : N -> N) : res (N -> N) :=
  match l with [] => Ok filled | i :: r => f <- depth_step i filled ;; depth_loop r f end.
Definition calculate_depth (c : circuit) : res N :=
  let nq := required_n_qubits c in
  if nq =? 0 then Ok 0
  else f <- depth_loop (c_gates c) (fun _ => 0) ;; Ok (max_step f (seqN nq) 0).

(** std::map<std::string, double> *)
Definition params : Type := string -> option R.
Definition bparams : Type := string -> option (list R).
Definition opt_res {T} (x : option T) : res T := match x with Some v => Ok v | None => Throw end.

(** circuit.cpp:93-140 *)
Section CircuitUpdate.
  Variables (n L : N) (ps : params).
  (** 125-131: the new unreset_measured_qubit_mask *)
  Definition mark_measured (i : citem) (mask : N) : N :=
    match i with IGate (CMeas t _ false) => N.lor mask t | _ => mask end.
  Definition item_update (i : citem) : host world unit :=
    match i with
    | IGate g => cgate_update n L g
    | IParam g key => v <~ hlift (opt_res (ps key));; pgate_update n L g v
    end.
  Definition guarded_update (i : citem) (mask : N) : host world N :=
    hcheck (N.land mask (item_mask i) =? 0);~
    item_update i;~
    hret (mark_measured i mask).
  Definition checked_cond (f : option cond) : host world bool :=
    match f with None => hret true | Some f => r <~ hget w_reg;; hlift (f r) end.
  Fixpoint run_items (l : list citem) (fs : list (option cond)) (mask : N) : host world unit :=
    match l, fs with
    | [], _ => hret tt
    | i :: r, f :: fs' =>
      go <~ checked_cond f;;
      if go then mask' <~ guarded_update i mask;; run_items r fs' mask' else run_items r fs' mask
    | _ :: _, [] => hundefined   (* _classical_conditions[idx] *)
    end.
  Definition circuit_update (c : circuit) : host world unit :=
    hcheck (required_n_qubits c <=? n);~
    hcheck (forallb (fun k => match ps k with Some _ => true | None => false end) (keys c));~
    run_items (c_gates c) (c_conds c) 0.
  (** circuit.cpp:78-91: without a register, the state's only *)
  Definition circuit_update_plain (c : circuit) : host world unit :=
    if has_classical_instructions c then hthrow
    else hmodify (set_reg []);~ circuit_update c.
End CircuitUpdate.

(** circuit.cpp:160-232 *)
Section BatchedCircuitUpdate.
  Variables (n B L : N) (ps : bparams).
  Definition b_item_update (i : citem) : host bworld unit :=
    match i with
    | IGate g => b_cgate_update n B L g
    | IParam g key => v <~ hlift (opt_res (ps key));; b_pgate_update n B L g v
    end.
  Definition b_guarded_update (i : citem) (mask : N) : host bworld N :=
    hcheck (N.land mask (item_mask i) =? 0);~
    b_item_update i;~
    hret (mark_measured i mask).
  (** 190-206: the gate runs on the elements whose register satisfies the condition *)
  Definition b_conditional (i : citem) (f : cond) : host bworld unit :=
    hfor (seqN B) (fun b =>
      regs <~ hget bw_regs;;
      reg <~ hlift (breg_get regs b);;
      go <~ hlift (f reg);;
      if go then
        match i with
        | IGate g => on_view n b (cgate_update n L g)
        | IParam g key =>
          vs <~ hlift (opt_res (ps key));;
          match nth_error vs (N.to_nat b) with
          | Some v => on_view n b (pgate_update n L g v)
          | None => hundefined
          end
        end
      else hret tt).
  Fixpoint b_run_items (l : list citem) (fs : list (option cond)) (mask : N) : host bworld unit :=
    match l, fs with
    | [], _ => hret tt
    | i :: r, Some f :: fs' => b_conditional i f;~ b_run_items r fs' mask
    | i :: r, None :: fs' => mask' <~ b_guarded_update i mask;; b_run_items r fs' mask'
    | _ :: _, [] => hundefined
    end.
  Definition b_circuit_update (c : circuit) : host bworld unit :=
    hcheck (required_n_qubits c <=? n);~
    regs <~ hget bw_regs;;
    hcheck (N.of_nat (length (br_regs regs)) =? B);~
    hcheck (forallb (fun k => match ps k with Some vs => N.of_nat (length vs) =? B | None => false end) (keys c));~
    b_run_items (c_gates c) (c_conds c) 0.
End BatchedCircuitUpdate.
