(** Circuit::add_observable_rotation_gate (circuit.hpp:102-124). *)
From Verif Require Export Circuit Operator.

(** 118-122: one repetition *)
Fixpoint add_rotations (vf : bool) (theta : R) (terms : list pauli) (c : circuit) : res circuit :=
  match terms with
  | [] => Ok c
  | p :: r => g <- make vf (CallPauliRotation p theta [] []) ;; add_rotations vf theta r (add_gate c (CElem (true, g)))
  end.
Fixpoint repeat_rotations (vf : bool) (theta : R) (terms : list pauli) (k : nat) (c : circuit) : res circuit :=
  match k with O => Ok c | S k => c' <- add_rotations vf theta terms c ;; repeat_rotations vf theta terms k c' end.
(** num_repeats is a signed integer.  Rounding of the angles is not modelled. *)
Definition add_observable_rotation_gate (vf : bool) (o : operator) (angle : R) (num_repeats : Z) (c : circuit) : res circuit :=
  if negb (o_herm o) then Throw
  else if (num_repeats <=? 0)%Z then Throw
  else if Rlt_dec (Rabs angle) (/ 10 ^ 12) then Ok c
  else repeat_rotations vf (angle / IZR num_repeats) (o_terms o) (Z.to_nat num_repeats) c.
