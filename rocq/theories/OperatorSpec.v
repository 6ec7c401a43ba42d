(** What operators mean: sums of Pauli strings acting on states. *)
From Verif Require Export GateSpec Operator.

(** The action of a Pauli operator: coef times the tensor product of its letters on the qubits it names. *)
Definition pauli_act (p : pauli) (psi : state) : state :=
  apply_mat (bits (N.lor (p_bf p) (p_pf p))) []
    (fun i j => (p_coef p * tensor (map (pauli_id_of (p_bf p) (p_pf p)) (bits (N.lor (p_bf p) (p_pf p)))) i j)%C) psi.
(** The action of a sum of Pauli operators. *)
Definition terms_act (l : list pauli) (psi : state) : state := fun x => Csuml (fun p => pauli_act p psi x) l.
Definition op_act (o : operator) (psi : state) : state := terms_act (o_terms o) psi.
(** The operator acts on n qubits. *)
Definition pauli_fits (n : N) (p : pauli) : Prop := p_bf p < 2 ^ n /\ p_pf p < 2 ^ n.
Definition op_fits (n : N) (o : operator) : Prop := Forall (pauli_fits n) (o_terms o).
(** <bra| A |ket> *)
Definition bracket (n : N) (bra : state) (A : state -> state) (ket : state) : C := inner n bra (A ket).
Definition self_adjoint (n : N) (A : state -> state) : Prop := forall phi psi, inner n phi (A psi) = inner n (A phi) psi.
(** The computational basis state j. *)
Definition basis (j : N) : state := fun x => if x =? j then C1 else C0.
(** The same string with coefficient 1. *)
Definition unit_coef (p : pauli) : pauli := Pauli C1 (p_bf p) (p_pf p).
(** No two terms are the same Pauli string. *)
Definition distinct_strings (l : list pauli) : Prop := NoDup (map (fun p => (p_bf p, p_pf p)) l).
(** The masks are 64-bit words. *)
Definition pauli_u64 (p : pauli) : Prop := p_bf p < two64 /\ p_pf p < two64.
Definition op_u64 (o : operator) : Prop := Forall pauli_u64 (o_terms o).
