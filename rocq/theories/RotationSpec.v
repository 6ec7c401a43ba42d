(** What a rotation by an observable is. *)
From Verif Require Export Rotation GradientSpec GroundSpec.
Open Scope N_scope.
Open Scope list_scope.

(** The evolution exp(- i t/2 H) psi: the solution E of  E' = - i/2 H E  with E(0) = psi. *)
Definition evolution (n : N) (H : operator) (psi : state) (E : R -> state) : Prop :=
  (forall x, x < 2 ^ n -> E 0%R x = psi x) /\
  forall t x, x < 2 ^ n -> cderivative (fun t => E t x) t (Cscale (- / 2) (Ci * op_act H (E t) x))%C.
(** Euclidean length and distance of vectors on n qubits *)
Definition vnorm (n : N) (psi : state) : R := sqrt (sqnorm n psi).
Definition distance (n : N) (psi phi : state) : R := vnorm n (fun x => psi x - phi x)%C.
(** The terms commute *)
Definition commute (p q : pauli) : Prop := forall psi x, pauli_act p (pauli_act q psi) x = pauli_act q (pauli_act p psi) x.
(** Sum of |c||d| over the pairs of terms marked as apart, where c and d are the coefficients *)
Fixpoint apart_weight (apart : pauli -> pauli -> bool) (l : list pauli) : R :=
  match l with
  | [] => 0
  | p :: r => (Rsuml (fun q => if apart p q then Rabs (fst (p_coef p)) * Rabs (fst (p_coef q)) else 0) r + apart_weight apart r)%R
  end.
(** The strings differ, other than by I, on an odd number of qubits *)
Definition anticommute (p q : pauli) : bool := xorb (parity (N.land (p_bf p) (p_pf q))) (parity (N.land (p_pf p) (p_bf q))).
(** X + Z on one qubit *)
Definition xz : operator := Op [Pauli C1 1 0; Pauli C1 0 1] true false.
