(** What the methods of OperatorBatched should do, seen from outside. *)
From Verif Require Export OperatorSpec OperatorBatched.

(** [always f v]: whatever the schedule, the call returns [v] or the schedule is incomplete, and some schedule
    completes.  [S] is the type of schedules. *)
Definition always {S T} (f : S -> option (res T)) (v : T) : Prop :=
  (forall s, f s = None \/ f s = Some (Ok v)) /\ (exists s, f s = Some (Ok v)).
(** The call throws. *)
Definition always_throws {S T} (f : S -> option (res T)) : Prop := forall s, f s = Some Throw.
(** No schedule lets the call return: it is undefined behaviour or does not complete. *)
Definition never_returns {S T} (f : S -> option (res T)) : Prop := forall s, f s = None \/ f s = Some UB.

(** The batch [o] holds the operators whose terms are listed in [L], as its methods show it. *)
Definition holds (o : opbatch) (L : list (list pauli)) : Prop :=
  ob_batch_size o = N.of_nat (length L) /\
  (forall b l, nth_error L b = Some l ->
     exists p, ob_get_operator_at o (N.of_nat b) = Ok p /\ o_terms p = l) /\
  (forall b, N.of_nat (length L) <= b -> ob_get_operator_at o b = Throw) /\
  (exists ps, ob_get_operators o = Ok ps /\ map o_terms ps = L).
(** Element b of the result is [f] of element b of the arguments. *)
Definition each2 {X Y Z} (f : X -> Y -> Z) (l : list X) (m : list Y) : list Z :=
  map (fun p => f (fst p) (snd p)) (combine l m).
(** Whatever the schedule, the call returns a batch that holds the terms of the operators [ops], in order. *)
Definition returns_batch {S} (f : S -> option (res opbatch)) (ops : list operator) : Prop :=
  exists r, always f r /\ holds r (map o_terms ops).
(** The batch of the given operators. *)
Definition batch_of (ops : list operator) : opbatch := ob_of_operators ops.
(** The vectors of row_ptr need one more entry than there are elements, and a vector's size is a 64-bit number. *)
Definition fits_vector {T} (l : list T) : Prop := N.of_nat (length l) < two64 - 1.
(** get_applied_states: row b of the result is operator b applied to psi. *)
Definition applied_rows (n : N) (ops : list operator) (psi : state) (r : N -> state) : Prop :=
  forall b o x, nth_error ops b = Some o -> x < 2 ^ n -> r (N.of_nat b) x = op_act o psi x.
(** the terms flip no qubit but qubit 0, or each of them flips a qubit *)
Definition flips_only_qubit_0 (o : operator) : Prop := Forall (fun p => p_bf p <= 1) (o_terms o).
Definition every_term_flips (o : operator) : Prop := Forall (fun p => p_bf p <> 0) (o_terms o).
