(** What the gradient of an expectation value is. *)
From Verif Require Export CircuitSpec OperatorSpec Gradient.

(** A circuit of gates without parameter and rotations by a named parameter. *)
Inductive layer : Type := Fixed (k : call) | Turn (k : pcall) (key : string).
(** The gate object of a layer: made by a factory, or for a rotation about X, Y or Z also by the inverse of one. *)
Definition layer_item (vf : bool) (l : layer) (i : citem) : Prop :=
  match l, i with
  | Fixed k, IGate (CElem (_, g)) => make vf k = Ok g
  | Turn k key, IParam g key' => key' = key /\
    (make_param vf k = Ok g \/
     (match k with PCallRot _ _ _ _ _ => True | _ => False end /\
      exists g0, make_param vf (pcall_opposite k) = Ok g0 /\ p_inverse g0 = Ok g))
  | _, _ => False
  end.
Definition built (vf : bool) (ls : list layer) (c : circuit) : Prop :=
  Forall2 (layer_item vf) ls (c_gates c) /\ c_conds c = map (fun _ => None) ls.
Definition layer_keys (ls : list layer) : list string := flat_map (fun l => match l with Fixed _ => [] | Turn _ key => [key] end) ls.

(** The vector after the layers, for parameter values [val]. *)
Definition call_act (k : call) : state -> state := apply_mat (call_targets k) (call_controls k) (call_matrix k).
Definition layer_act (val : string -> R) (l : layer) : state -> state :=
  match l with Fixed k => call_act k | Turn k key => call_act (pcall_at k (val key)) end.
Definition evolve (val : string -> R) (ls : list layer) (psi0 : state) : state := fold_left (fun psi l => layer_act val l psi) ls psi0.
(** <psi|O|psi> for the vector the layers make of |0...0> *)
Definition energy (n : N) (o : operator) (val : string -> R) (ls : list layer) : R :=
  Re (inner n (evolve val ls (basis 0)) (op_act o (evolve val ls (basis 0)))).
Definition with_value (val : string -> R) (key : string) (v : R) : string -> R := fun k => if String.eqb k key then v else val k.
(** derivative of a complex function of a real variable *)
Definition cderivative (f : R -> C) (v : R) (d : C) : Prop :=
  derivable_pt_lim (fun t => fst (f t)) v (fst d) /\ derivable_pt_lim (fun t => snd (f t)) v (snd d).

(** The layers for which the method is right: unitary gates that have an inverse; rotations without control qubits
    about a Pauli operator with a real coefficient, that are not too slow to be accepted. *)
Definition turn_scale (k : pcall) : R :=
  match k with PCallRot _ _ pcoef _ _ => pcoef | PCallPauliRotation p pcoef _ _ => (pcoef * fst (p_coef p))%R end.
Definition differentiable (l : layer) : Prop :=
  match l with
  | Fixed k => call_typed k /\ call_unitary k /\ call_invertible k /\ has_inverse k = true
  | Turn k _ =>
    pcall_typed k /\ (/ 2 ^ 52 <= Rabs (turn_scale k))%R /\
    match k with
    | PCallRot _ _ _ cs _ => cs = []
    | PCallPauliRotation p _ cs _ => cs = [] /\ snd (p_coef p) = 0%R /\ (/ 2 ^ 52 <= Rabs (fst (p_coef p)))%R
    end
  end.
(** The operands of a layer are what the factories of that gate expect. *)
Definition layer_typed (l : layer) : Prop := match l with Fixed k => call_typed k | Turn k _ => pcall_typed k end.
(** Rotations the method refuses: too slow, or about a Pauli operator whose coefficient is not real or too small. *)
Definition refused (eps : R) (k : pcall) : Prop :=
  (Rabs (turn_scale k) < / 2 ^ 52)%R \/
  match k with
  | PCallRot _ _ _ _ _ => False
  | PCallPauliRotation p _ _ _ => (eps <= Rabs (snd (p_coef p)))%R \/ (Rabs (fst (p_coef p)) < / 2 ^ 52)%R
  end.
Definition thrown {T} (out : houtcome gworld T) : Prop := exists w, out = HThrown w.
