(** Specification for the ground-state solvers. *)
From Verif Require Export Ground OperatorSpec StateSpec.
Open Scope N_scope.
Open Scope list_scope.

(** The number the solvers shift by when none is given: the sum of the absolute values of the coefficients *)
Definition coef_sum (o : operator) : R := Rsuml (fun p => Rabs (fst (p_coef p))) (o_terms o).
Definition shift_of (o : operator) (mu : option C) : C := match mu with Some m => m | None => RtoC (coef_sum o) end.
(** (A - mu)^k psi *)
Definition shifted (o : operator) (mu : C) (psi : state) : state := fun x => (op_act o psi x - mu * psi x)%C.
Fixpoint shifted_power (o : operator) (mu : C) (k : nat) (psi : state) : state :=
  match k with O => psi | S k => shifted o mu (shifted_power o mu k psi) end.
(** <psi|A|psi> / <psi|psi> *)
Definition rayleigh (n : N) (o : operator) (psi : state) : R := (Re (inner n psi (op_act o psi)) / sqnorm n psi)%R.
(** no state has a smaller energy than lambda / a larger one than mu *)
Definition energy_at_least (n : N) (o : operator) (lambda : R) : Prop := forall phi, (lambda * sqnorm n phi <= Re (inner n phi (op_act o phi)))%R.
Definition energy_at_most (n : N) (o : operator) (mu : R) : Prop := forall phi, (Re (inner n phi (op_act o phi)) <= mu * sqnorm n phi)%R.
(** g is a ground state and lambda the ground-state energy *)
Definition ground_state (n : N) (o : operator) (lambda : R) (g : state) : Prop :=
  energy_at_least n o lambda /\ sqnorm n g <> 0%R /\ forall x, x < 2 ^ n -> op_act o g x = Cscale lambda (g x).
(** |A psi - E psi|^2 *)
Definition residual (n : N) (o : operator) (E : C) (psi : state) : R := sqnorm n (fun x => op_act o psi x - E * psi x)%C.
(** Every execution gives an eigenvalue and a state with Q *)
Definition solves (p : host world C) (w : world) (Q : C -> state -> Prop) : Prop := runs p w (done (fun E w' => Q E (w_amp w'))).
(** What both solvers need of the operator *)
Definition solvable (n : N) (o : operator) : Prop := 0 < n /\ n <= 63 /\ op_fits n o /\ o_terms o <> [].

Definition real_coefs (o : operator) : Prop := Forall (fun p => snd (p_coef p) = 0%R) (o_terms o).
Definition eigenstate (n : N) (o : operator) (e : R) (psi : state) : Prop := forall x, x < 2 ^ n -> op_act o psi x = Cscale e (psi x).

(** Concrete operators and states *)
Definition zterm (c : R) (mask : N) : pauli := Pauli (RtoC c) 0 mask.
(** 2 Z0 + Z1, the identity and Z0 *)
Definition unlucky : operator := Op [zterm 2 1; zterm 1 2] true false.
Definition one_op : operator := Op [zterm 1 0] true false.
Definition z_op : operator := Op [zterm 1 1] true false.
Definition start (psi : state) : world := World psi None [] (fun _ => 0%R).
Definition plus : state := fun x => RtoC (/ sqrt 2).

(** ** For the Arnoldi method *)
Definition sumn (k : nat) (f : nat -> C) : C := Csuml f (seq 0 k).
(** On n qubits, phi is a linear combination of f 0, ..., f (k-1). *)
Definition in_span (n : N) (f : nat -> state) (k : nat) (phi : state) : Prop :=
  exists c : nat -> C, forall x, x < 2 ^ n -> phi x = sumn k (fun i => c i * f i x)%C.
Definition lin_independent (n : N) (f : nat -> state) (k : nat) : Prop :=
  forall c : nat -> C, (forall x, x < 2 ^ n -> sumn k (fun i => c i * f i x)%C = C0) -> forall i, (i < k)%nat -> c i = C0.
(** psi, (A - mu) psi, (A - mu)^2 psi, ... *)
Definition krylov (o : operator) (mu : C) (psi : state) (j : nat) : state := shifted_power o mu j psi.

(** What is expected of the library's eigenvalue solver on a k x k matrix: k eigenvalues and eigenvectors, and for a
    Hermitian matrix a spanning set of eigenvectors. *)
Definition at_index (v : N -> C) (i : nat) : C := v (N.of_nat i).
Definition is_eigenpair (k : nat) (M : matrix) (p : C * (N -> C)) : Prop :=
  (exists i, (i < k)%nat /\ at_index (snd p) i <> C0) /\
  forall j, (j < k)%nat -> sumn k (fun i => M (N.of_nat j) (N.of_nat i) * at_index (snd p) i)%C = (fst p * at_index (snd p) j)%C.
Definition hermitian_up_to (k : nat) (M : matrix) : Prop :=
  forall i j, (i < k)%nat -> (j < k)%nat -> M (N.of_nat j) (N.of_nat i) = Cconj (M (N.of_nat i) (N.of_nat j)).
Definition spanning (k : nat) (l : list (C * (N -> C))) : Prop :=
  forall v : N -> C, exists c : nat -> C, forall i, (i < k)%nat -> at_index v i = sumn (length l) (fun m => c m * at_index (snd (nth m l (C0, fun _ => C0))) i)%C.
Definition solver_correct (solver : nat -> matrix -> option (list (C * (N -> C)))) : Prop :=
  forall k M l, solver k M = Some l -> length l = k /\ Forall (is_eigenpair k M) l /\ (hermitian_up_to k M -> spanning k l).
(** Every execution either gives an eigenvalue and a state with Q, or the library's solver failed and the method throws. *)
Definition solves_with (solver : nat -> matrix -> option (list (C * (N -> C)))) (p : host world C) (w : world) (Q : C -> state -> Prop) : Prop :=
  runs p w (fun out => match out with HDone E w' => Q E (w_amp w') | HThrown _ => exists k M, solver k M = None | HUndefined => False end).
