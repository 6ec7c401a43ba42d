(** What a simulation in rounded arithmetic is compared with. *)
From Verif Require Export FloatStateSpec.
Open Scope R_scope.

(** How far the gates of the list [ks] may move a normalised state of [n] qubits from the exact one *)
Definition run_error (u eta : R) (n : N) (ks : list call) : R := 3 * total_weight ks * unit_error u eta n 1.
(** A simulation: unitary gates [gs], made by the calls [ks], act on a normalised state of [n] qubits, and rounding does not
    swamp them. *)
Definition simulation_ok (u eta : R) (A : arith) (n L : N) (ks : list call) (gs : list egate) (psi : state) : Prop :=
  accurate u eta A /\ sizes_ok n 1 L /\ Forall2 (call_ok u A n) ks gs /\ sqnorm n psi = 1 /\ run_error u eta n ks <= 1.
(** ... in double precision, up to 40 qubits, gates of total weight up to 3 * 10^15 *)
Definition double_ok (A : arith) (n L : N) (ks : list call) (gs : list egate) (psi : state) : Prop :=
  binary 53 (-1074) A /\ sizes_ok n 1 L /\ Forall2 (call_ok (unit_of 53) A n) ks gs /\ sqnorm n psi = 1 /\ total_weight ks <= 3 * 10 ^ 15 /\ (n <= 40)%N.
