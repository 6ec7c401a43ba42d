(** What writing an object as JSON and reading it back promises. *)
From Verif Require Export MergeSpec CircuitSpec Json.
Open Scope N_scope.

(** A gate a program can hold: returned by a factory, or by get_inverse of such a gate. *)
Inductive held : cgate -> Prop :=
| held_gate t g : made (t, g) -> held (CElem (t, g))
| held_measurement target bit reset g : make_measurement target bit reset = Ok g -> held g
| held_probabilistic dist gs g : (forall g, In g gs -> held g) -> make_probabilistic dist gs = Ok g -> held g
| held_inverse g g' : held g -> c_inverse g = Ok g' -> held g'.
(** The same for parametric gates. *)
Inductive held_param : pgate -> Prop :=
| held_param_gate vf k g : pcall_typed k -> make_param vf k = Ok g -> held_param g
| held_param_probabilistic dist gs g :
    (forall g, In (inl g) gs -> held g) -> (forall g, In (inr g) gs -> held_param g) ->
    make_param_probabilistic dist gs = Ok g -> held_param g
| held_param_inverse g g' : held_param g -> p_inverse g = Ok g' -> held_param g'.

(** The alternatives of a probabilistic gate are not probabilistic themselves.  (The factory makes it so, unless an
    alternative is the inverse of a probabilistic gate.) *)
Definition one_level (g : cgate) : Prop :=
  match g with CProb _ _ gs => Forall (fun g => match g with CProb _ _ _ => False | _ => True end) gs | _ => True end.
Definition one_level_param (g : pgate) : Prop :=
  match g with
  | PProb _ _ gs => Forall (fun g => match g with inl (CProb _ _ _) | inr (PProb _ _ _) => False | _ => True end) gs
  | _ => True
  end.
(** The kinds of gates that can be read: not P0, P1, DenseMatrix, SparseMatrix. *)
Definition readable_kind (g : egate) : bool :=
  match g with EStd GP0 _ | EStd GP1 _ | EDense _ _ _ | ESparse _ _ => false | _ => true end.
Fixpoint readable (g : cgate) : bool :=
  match g with CElem (_, g) => readable_kind g | CMeas _ _ _ => true | CProb _ _ gs => forallb readable gs end.
Fixpoint readable_param (g : pgate) : bool :=
  match g with
  | PProb _ _ gs => forallb (fun g => match g with inl g => readable g | inr g => readable_param g end) gs
  | _ => true
  end.
Definition readable_item (i : citem) : bool := match i with IGate g => readable g | IParam g _ => readable_param g end.

(** The same gate behind a pointer of its own type: an inverse is behind one of type Unknown. *)
Fixpoint typed (g : cgate) : cgate :=
  match g with
  | CElem (_, g) => CElem (true, g)
  | CMeas t bit reset => CMeas t bit reset
  | CProb _ dist gs => CProb true dist (map typed gs)
  end.
Fixpoint typed_param (g : pgate) : pgate :=
  match g with
  | PRot _ k b pcoef => PRot true k b pcoef
  | PPauliRotation _ b p pcoef => PPauliRotation true b p pcoef
  | PProb _ dist gs => PProb true dist (map (fun g => match g with inl g => inl (typed g) | inr g => inr (typed_param g) end) gs)
  end.
Definition typed_item (i : citem) : citem :=
  match i with IGate g => IGate (typed g) | IParam g key => IParam (typed_param g) key end.
Definition held_item (i : citem) : Prop := match i with IGate g => held g /\ one_level g | IParam g _ => held_param g /\ one_level_param g end.

(** A gate made by the factories alone. *)
Inductive fresh_gate : cgate -> Prop :=
| fm_gate vf k g : call_typed k -> make vf k = Ok g -> fresh_gate (CElem (true, g))
| fm_measurement target bit reset g : make_measurement target bit reset = Ok g -> fresh_gate g
| fm_probabilistic dist gs g : (forall g, In g gs -> fresh_gate g) -> make_probabilistic dist gs = Ok g -> fresh_gate g.
Inductive fresh_param : pgate -> Prop :=
| fmp_gate vf k g : pcall_typed k -> make_param vf k = Ok g -> fresh_param g
| fmp_probabilistic dist gs g :
    (forall g, In (inl g) gs -> fresh_gate g) -> (forall g, In (inr g) gs -> fresh_param g) ->
    make_param_probabilistic dist gs = Ok g -> fresh_param g.
Definition fresh_item (i : citem) : Prop := match i with IGate g => fresh_gate g | IParam g _ => fresh_param g end.
(** Kinds that cannot be read appear nowhere in a circuit's list of gates. *)
Definition all_readable (l : list citem) : Prop := forall i, In i l -> readable_item i = true.

(** What holds of every gate that was read: distinct operands below 64, a value for every control, and the
    probabilities of a probabilistic gate are such. *)
Definition sound_operands (g : egate) : Prop :=
  NoDup (gate_target_list g ++ gate_control_list g) /\ Forall (fun q => q < 64) (gate_target_list g ++ gate_control_list g) /\
  length (gate_control_values g) = length (gate_control_list g).
Inductive sound : cgate -> Prop :=
| sound_gate t g : sound_operands g -> sound (CElem (t, g))
| sound_measurement t bit reset : sound (CMeas t bit reset)
| sound_probabilistic t dist gs :
    dist <> [] -> length dist = length gs -> Forall (fun p => 0 <= p <= 1)%R dist -> (Rabs (Rsuml (fun p => p) dist - 1) <= / 10 ^ 6)%R ->
    (forall g, In g gs -> sound g) -> (forall g, In g gs -> match g with CMeas _ _ _ => False | _ => True end) -> sound (CProb t dist gs).

(** Writing leaves the object as it is, and reading the result into any object, whatever it held, gives [Q]. *)
Definition restores {W S} (write : host W json) (read : json -> host W S) (w : W) (Q : S -> W -> Prop) : Prop :=
  runs write w (done (fun j w' => w' = w /\ forall u, runs (read j) u (done (fun s u' => Q s u')))).
(** The gates of a probabilistic gate *)
Definition alternatives (g : cgate) : list cgate := match g with CProb _ _ gs => gs | _ => [] end.
(** An X gate as JSON *)
Definition x_json (targets controls values : list N) : json :=
  JObject [("type", JString "X"); ("target", u64_list targets); ("control", u64_list controls); ("control_value", u64_list values)]%string.
(** The types gate.hpp:626-659 reads *)
Definition known_types : list string :=
  ["I"; "GlobalPhase"; "X"; "Y"; "Z"; "H"; "S"; "Sdag"; "T"; "Tdag"; "SqrtX"; "SqrtXdag"; "SqrtY"; "SqrtYdag"; "RX"; "RY"; "RZ";
   "U1"; "U2"; "U3"; "Swap"; "Ecr"; "Permutation"; "Pauli"; "PauliRotation"; "Probabilistic"; "Measurement"]%string.
