(** What a document must look like for reading it to be defined. *)
From Verif Require Export Json.
Local Open Scope N_scope.

(** a value and all values inside it *)
Fixpoint everywhere (P : json -> Prop) (j : json) : Prop :=
  P j /\
  match j with
  | JArray l => fold_right (fun x Q => everywhere P x /\ Q) True l
  | JObject l => fold_right (fun x Q => everywhere P (snd x) /\ Q) True l
  | _ => True
  end.
(** a number with a fraction lies in the range of u64 *)
Definition in_range (j : json) : Prop := match j with JFloat r => (-1 < r < 2 ^ 64)%R | _ => True end.
Definition numbers_in_range (j : json) : Prop := match j with JArray l => Forall in_range l | _ => True end.
(** an object that is read as a complex number has both parts *)
Definition has_parts (j : json) : Prop :=
  match j with JObject l => member "real" l <> None /\ member "imag" l <> None | _ => True end.
(** what is asked of every object of a gate, circuit or operator document: indices are in range, there is a value for
    every control, controls are qubits, a permutation has fewer than 64 qubits, coefficients have both parts.  Members
    may be missing, of another type, or unknown. *)
Definition orderly_object (j : json) : Prop :=
  match j with
  | JObject l =>
    (forall key v, In key ["target"; "control"; "control_value"; "dst"; "physical_control"; "physical_target"]%string ->
       member key l = Some v -> numbers_in_range v) /\
    (forall v, member "classical_bit" l = Some v -> in_range v) /\
    (forall cs vs, member "control" l = Some (JArray cs) -> member "control_value" l = Some (JArray vs) ->
       (length cs <= length vs)%nat) /\
    (forall cs c q, member "control" l = Some (JArray cs) -> In c cs -> get_u64 c = Ok q -> q < 64) /\
    (forall d, member "dst" l = Some (JArray d) -> (length d < 64)%nat) /\
    (forall v, member "coef" l = Some v -> has_parts v)
  | _ => True
  end.
Definition orderly : json -> Prop := everywhere orderly_object.

(** state documents: fewer than 64 qubits, and complex numbers with both parts *)
Definition few_qubits (j : json) : Prop :=
  forall v, at_key j "n_qubits" = Ok v -> in_range v /\ (forall n, get_u64 v = Ok n -> n < 64).
Definition orderly_state (j : json) : Prop :=
  few_qubits j /\ (forall l, at_key j "amplitudes" = Ok (JArray l) -> Forall has_parts l).
Definition orderly_states (j : json) : Prop :=
  few_qubits j /\ (forall v, at_key j "batch_size" = Ok v -> in_range v) /\
  (forall l r, at_key j "amplitudes" = Ok (JArray l) -> In (JArray r) l -> Forall has_parts r).
(** the matrix has a row, and all rows are as long as the first *)
Definition orderly_density (j : json) : Prop :=
  few_qubits j /\
  (forall l, at_key j "matrix" = Ok (JArray l) -> exists r0 r, l = r0 :: r /\
     Forall (fun x => length (elements x) = length (elements r0) /\ Forall has_parts (elements x)) l).

(** the program ends, normally or with an exception *)
Definition defined {W T} (p : host W T) (w : W) : Prop := runs p w (fun o => o <> HUndefined).
