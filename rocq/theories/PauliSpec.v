(** What Pauli operators mean, independently of the mask encoding and of the kernels. *)
From Verif Require Export Spec.

(** The four single-qubit Pauli matrices, I = 0, X = 1, Y = 2, Z = 3. *)
Definition pauli1 (id : N) : matrix := fun i j =>
  match id with
  | 0 => if i =? j then C1 else C0
  | 1 => if i =? j then C0 else C1
  | 2 => if i =? j then C0 else if i =? 0 then (- Ci)%C else Ci
  | _ => if i =? j then (if i =? 0 then C1 else (- C1)%C) else C0
  end.
(** Tensor product: the k-th factor acts on bit k of the index. *)
Fixpoint tensor (ids : list N) : matrix := fun i j =>
  match ids with
  | [] => C1
  | id :: r => (pauli1 id (N.b2n (N.odd i)) (N.b2n (N.odd j)) * tensor r (N.div2 i) (N.div2 j))%C
  end.
(** The meaning of the two-mask representation documented for PauliOperator: bit flip = X part, phase flip =
    Z part, both = Y. *)
Definition pauli_id_of (bf pf q : N) : N :=
  match N.testbit bf q, N.testbit pf q with
  | false, false => 0
  | true, false => 1
  | true, true => 2
  | false, true => 3
  end.
