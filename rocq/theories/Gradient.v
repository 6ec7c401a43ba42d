(** Circuit::compute_expectation_gradient and compute_expectation_gradient_backprop
    (src/circuit/circuit.cpp:655-770).  Floating point numbers are exact reals. *)
From Verif Require Export Circuit Operator.
Open Scope N_scope.
Open Scope list_scope.

(** The two StateVector objects of the back propagation and the random engine of the context.  Neither object is
    a view into a batch, so replacing its buffer is not visible elsewhere. *)
Record gworld : Type := GWorld { gw_state : state; gw_bistate : state; gw_rand : nat -> R }.

(** a program on [state], on [bistate], on a copy of [state] (Astate = state.copy()) whose amplitudes are returned *)
Definition on_state {T} (p : host world T) : host gworld T := fun w o =>
  exists o1, p (World (gw_state w) None [] (gw_rand w)) o1 /\
    o = match o1 with
        | HDone t w1 => HDone t (GWorld (w_amp w1) (gw_bistate w) (w_rand w1))
        | HThrown w1 => HThrown (GWorld (w_amp w1) (gw_bistate w) (w_rand w1))
        | HUndefined => HUndefined
        end.
Definition on_bistate {T} (p : host world T) : host gworld T := fun w o =>
  exists o1, p (World (gw_bistate w) None [] (gw_rand w)) o1 /\
    o = match o1 with
        | HDone t w1 => HDone t (GWorld (gw_state w) (w_amp w1) (w_rand w1))
        | HThrown w1 => HThrown (GWorld (gw_state w) (w_amp w1) (w_rand w1))
        | HUndefined => HUndefined
        end.
Definition on_copy (p : host world unit) : host gworld state := fun w o =>
  exists o1, p (World (gw_state w) None [] (gw_rand w)) o1 /\
    o = match o1 with
        | HDone _ w1 => HDone (w_amp w1) (GWorld (gw_state w) (gw_bistate w) (w_rand w1))
        | HThrown w1 => HThrown (GWorld (gw_state w) (gw_bistate w) (w_rand w1))
        | HUndefined => HUndefined
        end.

(** std::numeric_limits<double>::epsilon() *)
Definition double_epsilon : R := / 2 ^ 52.
Definition tiny (x bound : R) : bool := if Rlt_dec (Rabs x) bound then true else false.

(** param_gate.hpp:96 param_coef(); a probabilistic gate keeps the default 1 *)
Definition param_coef (g : pgate) : R := match g with PRot _ _ _ pcoef | PPauliRotation _ _ _ pcoef => pcoef | PProb _ _ _ => 1%R end.
(** circuit.cpp:687-705: only a gate whose type is known to be ParamPauliRotation shows its Pauli operator *)
Definition pauli_coef_of (eps : R) (g : pgate) : res R :=
  match g with
  | PPauliRotation true _ p _ =>
    if negb (tiny (snd (p_coef p)) eps) then Throw
    else if tiny (fst (p_coef p)) double_epsilon then Throw
    else Ok (fst (p_coef p))
  | _ => Ok 1%R
  end.

(** std::unordered_map<std::string, double> *)
Definition gradient : Type := string -> option R.
(** 667-671 *)
Definition gradient_start (c : circuit) : gradient := fun key => if existsb (String.eqb key) (keys c) then Some 0%R else None.
(** gradient[key] += contrib; operator[] makes a missing entry 0 *)
Definition gradient_add (g : gradient) (key : string) (contrib : R) : gradient := fun k =>
  if String.eqb k key then Some ((match g key with Some v => v | None => 0 end) + contrib)%R else g k.

Section Backprop.
  Variables (eps : R) (n nb L : N) (ps : params).   (* n: qubits of state, nb: qubits of bistate *)
  (** 682-715 *)
  Definition contribution (g : pgate) : host gworld R :=
    pauli_coef <~ hlift (pauli_coef_of eps g);;
    let scale := (param_coef g * pauli_coef)%R in
    hcheck (negb (tiny scale double_epsilon));~
    Astate <~ on_copy (pgate_update n L g (- PI / scale));;
    ip <~ on_bistate (inner_product nb n Astate);;
    hret (- scale * Re ip)%R.
  (** 675-738: the gates, last first *)
  Fixpoint backprop_items (l : list citem) (grad : gradient) : host gworld gradient :=
    match l with
    | [] => hret grad
    | IGate g :: r =>
      inv <~ hlift (c_inverse g);;
      on_bistate (cgate_update nb L inv);~
      on_state (cgate_update n L inv);~
      backprop_items r grad
    | IParam g key :: r =>
      contrib <~ contribution g;;
      let grad' := gradient_add grad key contrib in
      inv <~ hlift (p_inverse g);;
      param <~ hlift (opt_res (ps key));;
      on_bistate (pgate_update nb L inv param);~
      on_state (pgate_update n L inv param);~
      backprop_items r grad'
    end.
  Definition compute_expectation_gradient_backprop (c : circuit) : host gworld gradient :=
    backprop_items (rev (c_gates c)) (gradient_start c).
End Backprop.

(** obs.apply_to_state(bistate) (operator.cpp:106-114); a sum that is not computed is undefined behaviour *)
Definition apply_to_bistate (o : operator) (n : N) : host gworld unit := fun w out =>
  exists scheds trees, (forall i, reduction_of (seqN (N.of_nat (length (o_terms o)))) (trees i)) /\
    match op_apply_to_state o (2 ^ n) (gw_bistate w) scheds trees with
    | Finished r => out = HDone tt (GWorld (gw_state w) (fun i => match r i with Some v => v | None => C0 end) (gw_rand w))
    | Unfinished => False
    | OutOfBounds | DataRace => out = HUndefined
    end.
(** circuit.cpp:755-770; StateVector(n) is the zero state *)
Definition compute_expectation_gradient (eps : R) (L : N) (o : operator) (ps : params) (c : circuit) : host gworld gradient :=
  hcheck (o_herm o);~
  let n := required_n_qubits c in
  on_state (set_zero_state n);~
  on_state (circuit_update_plain n L ps c);~
  hmodify (fun w => GWorld (gw_state w) (gw_state w) (gw_rand w));~
  apply_to_bistate o n;~
  compute_expectation_gradient_backprop eps n n L ps c.
