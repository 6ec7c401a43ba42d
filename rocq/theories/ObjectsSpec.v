(** What programs with several state objects promise: objects as values. *)
From Verif Require Export Objects CircuitSpec.

Inductive value : Type := VVec (n : N) (psi : state) | VBat (B n : N) (f : N -> state).
Record vstate : Type := VState { v_env : nat -> option value; v_rand : nat -> R }.
Inductive voutcome : Type := VDone (V : vstate) | VThrown (V : vstate).
Definition vset (x : nat) (v : value) (V : vstate) : vstate := VState (fun y => if Nat.eqb y x then Some v else v_env V y) (v_rand V).
Definition zero_vector : state := fun x => if x =? 0 then C1 else C0.
Definition zero_value (s : shape) : value :=
  match s with Single n => VVec n zero_vector | Batch B n => VBat B n (fun _ => zero_vector) end.
(** the vector of x becomes [r], or the call throws and nothing changes *)
Definition becomes (x : nat) (V : vstate) (n : N) (r : option state) : voutcome :=
  match r with Some psi => VDone (vset x (VVec n psi) V) | None => VThrown V end.
Definition all_become (x : nat) (V : vstate) (B n : N) (r : option (N -> state)) : voutcome :=
  match r with Some f => VDone (vset x (VBat B n f) V) | None => VThrown V end.
Definition acted (k : call) (psi : state) : state := apply_mat (call_targets k) (call_controls k) (call_matrix k) psi.

(** One operation on values: every name holds a vector, or a family of vectors, of its own. *)
Inductive vstep : oop -> vstate -> voutcome -> Prop :=
| vstep_new x s V : vstep (ONew x s) V (VDone (vset x (zero_value s) V))
| vstep_assign x y V v : v_env V y = Some v -> vstep (OAssign x y) V (VDone (vset x v V))
| vstep_copy x y V v : v_env V y = Some v -> vstep (OCopy x y) V (VDone (vset x v V))
| vstep_vec x m V n psi : v_env V x = Some (VVec n psi) -> vstep (OVec x m) V (becomes x V n (vector_op n m psi))
| vstep_bat x m V B n f : v_env V x = Some (VBat B n f) -> vstep (OBat x m) V (all_become x V B n (family_op B n m f))
| vstep_add x c y V n psi m phi : v_env V x = Some (VVec n psi) -> v_env V y = Some (VVec m phi) ->
    vstep (OAdd x c y) V (VDone (vset x (VVec n (fun i => psi i + c * phi i)%C) V))
| vstep_add_bat x c y V B n f B2 m g : v_env V x = Some (VBat B n f) -> v_env V y = Some (VBat B2 m g) ->
    vstep (OAdd x c y) V (all_become x V B n (if (n =? m) && (B =? B2) then Some (fun b i => f b i + c * g b i)%C else None))
| vstep_load x y V n psi m phi : v_env V x = Some (VVec n psi) -> v_env V y = Some (VVec m phi) ->
    vstep (OLoad x y) V (becomes x V n (if n =? m then Some phi else None))
| vstep_load_bat x y V B n f B2 m g : v_env V x = Some (VBat B n f) -> v_env V y = Some (VBat B2 m g) ->
    vstep (OLoad x y) V (all_become x V B n (if (n =? m) && (B =? B2) then Some g else None))
| vstep_gate x vf k V n psi : v_env V x = Some (VVec n psi) -> vstep (OApply x vf k) V (VDone (vset x (VVec n (acted k psi)) V))
| vstep_gate_bat x vf k V B n f : v_env V x = Some (VBat B n f) ->
    vstep (OApply x vf k) V (VDone (vset x (VBat B n (fun b => acted k (f b))) V))
| vstep_run x ps c reg V n psi p us so : v_env V x = Some (VVec n psi) -> circuit_is c p ->
    us = map (v_rand V) (seq 0 (length us)) -> run_program watch_all n ps p us (SState psi reg) so ->
    let left phi := vset x (VVec n phi) (VState (v_env V) (fun i => v_rand V (length us + i)%nat)) in
    forall r, r = match so with SDone s => Some (VDone (left (s_psi s))) | SThrown s => Some (VThrown (left (s_psi s))) | SOutside => None end ->
    forall o, r = Some o -> vstep (ORun x ps c reg) V o
| vstep_view x s b V B n f : v_env V s = Some (VBat B n f) -> vstep (OView x s b) V (becomes x V n (if b <? B then Some (f b) else None))
| vstep_get x s b V B n f : v_env V s = Some (VBat B n f) -> vstep (OGetAt x s b) V (becomes x V n (if b <? B then Some (f b) else None))
| vstep_set_at s b y V B n f m phi : v_env V s = Some (VBat B n f) -> v_env V y = Some (VVec m phi) ->
    vstep (OSetAt s b y) V (all_become s V B n (if (b <? B) && (n =? m) then Some (fun b' => if b' =? b then phi else f b') else None))
| vstep_set s y V B n f m phi : v_env V s = Some (VBat B n f) -> v_env V y = Some (VVec m phi) ->
    vstep (OSetAll s y) V (all_become s V B n (if n =? m then Some (fun _ => phi) else None)).
(** A program up to the first exception *)
Inductive vrun : list oop -> vstate -> voutcome -> Prop :=
| vrun_nil V : vrun [] V (VDone V)
| vrun_cons o l V V1 r : vstep o V (VDone V1) -> vrun l V1 r -> vrun (o :: l) V r
| vrun_throws o l V V1 : vstep o V (VThrown V1) -> vrun (o :: l) V (VThrown V1).

(** What the library leaves to the caller *)
Definition own_sop (m : sop) : Prop := match m with SAdd _ _ _ _ => False | _ => True end.
Definition own_bop (m : bop) : Prop := match m with BoAdd _ _ _ _ _ | BoSet _ _ | BoSetAt _ _ _ => False | _ => True end.
Definition shape_ok (s : shape) : Prop := qubits s < 64 /\ size s <= 2 ^ 64.
Definition shape_of (v : value) : shape := match v with VVec n _ => Single n | VBat B n _ => Batch B n end.
Definition is_vec (V : vstate) (x : nat) : Prop := exists n psi, v_env V x = Some (VVec n psi).
Definition is_bat (V : vstate) (x : nat) : Prop := exists B n f, v_env V x = Some (VBat B n f).
Definition op_ok (o : oop) (V : vstate) : Prop :=
  match o with
  | ONew _ s => shape_ok s
  | OAssign _ y | OCopy _ y => exists v, v_env V y = Some v
  | OVec x m => exists n psi, v_env V x = Some (VVec n psi) /\ own_sop m /\ sop_ok n m psi
  | OBat x m => exists B n f, v_env V x = Some (VBat B n f) /\ own_bop m /\ (m = BoNormalize -> forall b, b < B -> sqnorm n (f b) <> 0%R)
  | OAdd x c y => (exists n psi m phi, v_env V x = Some (VVec n psi) /\ v_env V y = Some (VVec m phi) /\ n <= m) \/ is_bat V x /\ is_bat V y
  | OLoad x y => is_vec V x /\ is_vec V y \/ is_bat V x /\ is_bat V y
  | OApply x vf k => exists v, v_env V x = Some v /\ call_typed k /\ (exists g, make vf k = Ok g) /\
      Forall (fun q => q < qubits (shape_of v)) (call_operands k)
  | ORun x ps c reg => exists n psi p, v_env V x = Some (VVec n psi) /\ circuit_is c p /\
      forall us, Forall unit_draw us -> ~ run_program watch_all n ps p us (SState psi reg) SOutside
  | OView _ s _ | OGetAt _ s _ => is_bat V s
  | OSetAt s _ y | OSetAll s y => is_bat V s /\ is_vec V y
  end.
Fixpoint prog_ok (l : list oop) (V : vstate) : Prop :=
  match l with [] => True | o :: r => op_ok o V /\ forall V', vstep o V (VDone V') -> prog_ok r V' end.
(** programs that never make two names for one state *)
Definition separate_op (o : oop) : Prop := match o with OAssign _ _ | OView _ _ _ => False | _ => True end.

(** The store holds these values. *)
Definition holds_value (psi : state) (s : shape) (v : value) : Prop :=
  match s, v with
  | Single n, VVec m phi => n = m /\ forall i, i < 2 ^ n -> psi i = phi i
  | Batch B n, VBat B2 m f => B = B2 /\ n = m /\ forall b i, b < B -> i < 2 ^ n -> batch n b psi i = f b i
  | _, _ => False
  end.
Definition holds_all (st : store) (V : vstate) : Prop :=
  (forall x, match st_env st x, v_env V x with
             | Some o, Some v => holds_value (content st o) (o_shape o) v
             | None, None => True
             | _, _ => False
             end) /\
  forall k, st_rand st k = v_rand V k.
Definition finishes (o : houtcome store unit) (r : voutcome) : Prop :=
  match o, r with
  | HDone _ st, VDone V => holds_all st V
  | HThrown st, VThrown V => holds_all st V
  | _, _ => False
  end.

(** ** Sharing *)
(** The names an operation binds anew, and the object whose amplitudes it writes *)
Definition rebinds (o : oop) : list nat :=
  match o with ONew x _ | OAssign x _ | OCopy x _ | OView x _ _ | OGetAt x _ _ => [x] | _ => [] end.
Definition writes (o : oop) : list nat :=
  match o with OVec x _ | OBat x _ | OAdd x _ _ | OLoad x _ | OApply x _ _ | ORun x _ _ _ => [x] | OSetAt s _ _ | OSetAll s _ => [s] | _ => [] end.
(** Two objects have no amplitude in common. *)
Definition apart (o1 o2 : obj) : Prop :=
  o_buf o1 <> o_buf o2 \/ o_off o1 + size (o_shape o1) <= o_off o2 \/ o_off o2 + size (o_shape o2) <= o_off o1.
(** every object points to a buffer that exists *)
Definition sound (st : store) : Prop := forall x o, st_env st x = Some o -> (o_buf o < st_next st)%nat.
(** Gates and circuits whose update works in place *)
Definition circuit_stays (c : circuit) : Prop := forall i, In i (c_gates c) -> item_stays i = true.
Definition op_stays (o : oop) : Prop :=
  match o with
  | OApply _ vf k => forall g, make vf k = Ok g -> stays g = true
  | ORun _ _ c _ => circuit_stays c
  | _ => True
  end.
Definition after (o : houtcome store unit) (P : store -> Prop) : Prop :=
  match o with HDone _ st | HThrown st => P st | HUndefined => True end.
(** the amplitudes that x.get_amplitudes() returns *)
Definition amplitudes (st : store) (x : nat) : option (list C) :=
  match st_env st x with Some o => Some (map (content st o) (seqN (size (o_shape o)))) | None => None end.
(** Programs that touch the objects of a group only: they make, write and give names to members of the group, and the
    objects they name a second time or view are members too. *)
Definition sources (o : oop) : list nat := match o with OAssign _ y => [y] | OView _ s _ => [s] | _ => [] end.
Definition within (G : nat -> Prop) (o : oop) : Prop := Forall G (rebinds o ++ writes o ++ sources o).
(** No member of the group shares a buffer with an object outside. *)
Definition closed (G : nat -> Prop) (st : store) : Prop := forall x y ox oy, G x -> ~ G y -> st_env st x = Some ox -> st_env st y = Some oy -> o_buf ox <> o_buf oy.
Definition unchanged (st st' : store) (z : nat) : Prop := st_env st' z = st_env st z /\ amplitudes st' z = amplitudes st z.
