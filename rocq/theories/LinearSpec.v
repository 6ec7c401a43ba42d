(** Superpositions and global phases. *)
From Verif Require Export CircuitSpec.

(** Only gates that act on the state: no measurement, no random choice. *)
Definition acts_only (ps : string -> option R) (p : program) : Prop :=
  Forall (fun ic => cond_defined (snd ic) /\ forall g, item_gate ps (fst ic) = Some g -> exists qs f, g = Act qs f) p.
(** All runs end the same way; the worlds they leave. *)
Definition end_alike (os : list (houtcome world unit)) (ws : list world) : Prop :=
  os = map (HDone tt) ws \/ os = map HThrown ws.
