(** What a user of the Python methods update_quantum_state expects. *)
From Verif Require Export StateSpec CircuitSpec Front.
Open Scope N_scope.

(** The two calls have the same possible outcomes, whatever the state of the program. *)
Definition same_calls {W T} (p q : host W T) : Prop := forall w o, p w o <-> q w o.
(** The call is rejected, nothing having been changed. *)
Definition rejected {W} (p : host W unit) : Prop := forall w, runs p w (fun o => o = HThrown w).
(** The call has undefined behaviour. *)
Definition breaks {W} (p : host W unit) : Prop := forall w, runs p w (fun o => o = HUndefined).
(** The dictionary [m] has exactly the entries [l]. *)
Definition has_entries {T} (l : list (string * T)) (m : string -> option T) : Prop :=
  NoDup (map fst l) /\ forall k v, m k = Some v <-> In (k, v) l.
(** name=number, ... and name=[number, ...], ... *)
Definition numbers (l : list (string * R)) : list (string * pyval) := map (fun e => (fst e, PyNumber (snd e))) l.
Definition sequences (l : list (string * list R)) : list (string * pyval) := map (fun e => (fst e, PySequence (snd e))) l.
(** The same state vector and register, other random numbers so far. *)
Definition same_but_random (w w' : world) : Prop := w_amp w = w_amp w' /\ w_home w = w_home w' /\ w_reg w = w_reg w'.
Definition b_same_but_random (w w' : bworld) : Prop := bw_amp w = bw_amp w' /\ bw_regs w = bw_regs w'.
Definition ends_alike {W} (alike : W -> W -> Prop) (o o' : houtcome W unit) : Prop :=
  match o, o' with
  | HDone _ w, HDone _ w' | HThrown w, HThrown w' => alike w w'
  | HUndefined, HUndefined => True
  | _, _ => False
  end.
(** From states that are alike the call ends in ways that are alike. *)
Definition repeatable {W} (alike : W -> W -> Prop) (p : host W unit) : Prop :=
  forall w w' o, alike w w' -> p w o -> exists o', p w' o' /\ ends_alike alike o o'.
(** What a call without a seed can do, it does with some seed. *)
Definition some_seed {W} (call : option N -> host W unit) : Prop := forall w o, call None w o -> exists s, call (Some s) w o.
