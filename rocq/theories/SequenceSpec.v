(** Two circuits, one after the other. *)
From Verif Require Export ChannelSpec OrderSpec.

(** Two calls of update_quantum_state on the same state; the second is made if the first returns. *)
Definition in_turn (n L1 L2 : N) (ps : string -> option R) (c1 c2 : circuit) : host world unit :=
  hbind (circuit_update n L1 ps c1) (fun _ => circuit_update n L2 ps c2).
