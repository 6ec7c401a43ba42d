(** What the rounded numbers are compared with. *)
From Verif Require Export FloatState FloatSpec StateSpec OperatorSpec.
Open Scope N_scope.

(** Every execution returns a number that differs from [x] by at most [e], and changes nothing; there is one. *)
Definition returns_about (p : host world R) (w : world) (x e : R) : Prop :=
  runs p w (done (fun v w' => w' = w /\ (Rabs (v - x) <= e)%R)).
Definition returns_aboutC (p : host world C) (w : world) (x : C) (e : R) : Prop :=
  runs p w (done (fun v w' => w' = w /\ (sqrt (Cnorm2 (v - x)%C) <= e)%R)).
(** The error of a sum of at most 2^n numbers of total size [total], no chain of additions being longer than [h]:
    5 h + c units of rounding, and the underflow of the summands *)
Definition sum_error (u eta : R) (n : N) (h : nat) (c total : R) : R :=
  ((5 * INR h + c) * u * total + 24 * eta * 2 ^ N.to_nat n)%R.
(** Trees of height h exist for 2^n iterations, and rounding does not swamp sums of that height. *)
Definition height_ok (u : R) (n : N) (h : nat) : Prop := (N.to_nat n < h)%nat /\ (3 / 2 * INR h * u <= 1)%R.

(** Sampling: up to [e], the interval of cumulative probability of basis state x contains r. *)
Definition selects_about (e : R) (psi : state) (r : R) (x : N) : Prop :=
  (cumulative psi x - e <= r < cumulative psi (x + 1) + e)%R.
(** The chunks of a scan over [0, D), none longer than [k] *)
Definition chunks_ok (D : N) (k : nat) (chunks : list (list N)) : Prop :=
  concat chunks = seqN D /\ Forall (fun c => (length c <= k)%nat) chunks.
(** The uniform superposition of n = 2 m qubits *)
Definition uniform (m : N) : state := fun _ => RtoC (/ 2 ^ N.to_nat m)%R.
(** Rounding is symmetric. *)
Definition odd_rounding (A : arith) : Prop := forall x, a_rnd A (- x)%R = (- a_rnd A x)%R.
(** Every execution leaves a state at distance at most [e] from [phi] and changes nothing else; there is one. *)
Definition leaves_about (n : N) (p : host world unit) (w : world) (phi : state) (e : R) : Prop :=
  runs p w (done (fun _ w' => w_home w' = w_home w /\ w_reg w' = w_reg w /\ w_rand w' = w_rand w /\ (distance n (w_amp w') phi <= e)%R)).
(** The error of normalize() on a state of squared norm [size] *)
Definition normalize_error (u eta : R) (n : N) (h : nat) (size : R) : R :=
  (2 * (sum_error u eta n h 9 size / size) + 6 * u + 2 * eta * sqrt (2 ^ N.to_nat n))%R.
(** The error of an expectation value: [weight] is the sum of the moduli of the coefficients of the [terms] terms, [size]
    the squared norm of the state. *)
Definition expect_error (u eta : R) (n : N) (h : nat) (weight : R) (terms : nat) (size : R) : R :=
  ((5 * INR h + 43) * u * (weight * size) + 103 * eta * 2 ^ N.to_nat n * (weight + INR terms))%R.
Definition coef_weight (l : list pauli) : R := Rsuml (fun p => sqrt (Cnorm2 (p_coef p))) l.
(** The numbers drawn lie in [0, 1), and rounding them does not make them negative. *)
Definition rounds_ok (A : arith) (rounds : list (N -> R)) : Prop := forall draw i, In draw rounds -> unit_draw (draw i) /\ (0 <= a_rnd A (draw i))%R.
(** The error of a draw: chunks of at most [k] elements, [c] of them *)
Definition draw_error (u eta : R) (n : N) (c k : nat) (size : R) : R := (sum_error u eta n (c + 2 * k) 9 size + u + eta)%R.
(** A state of 3 qubits of norm 1 whose amplitude 3 is zero, and a division of the indices among three threads *)
Definition bad_state : state := fun i =>
  match i with
  | 0 => (/ 2, 0)%R | 1 => (/ 32, 0)%R | 2 => (/ 32, 0)%R | 4 => (27 / 32, 6 / 32)%R | 5 => (/ 32, 0)%R | _ => C0
  end.
Definition bad_chunks : list (list N) := [[0]; [1; 2]; [3; 4; 5; 6; 7]].
