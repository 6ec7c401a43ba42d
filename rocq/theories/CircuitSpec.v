(** What measurement, probabilistic gates and circuits promise: a small reference semantics.  A gate is a
    function on vectors, a measurement, or a random choice; nothing here refers to masks, kernels, gate objects
    or the world of host programs. *)
From Verif Require Export StateSpec MergeSpec Circuit.

(** * Reference semantics *)

Inductive sgate : Type :=
| Act (qubits : list N) (f : state -> state)
| Meas (q bit : N) (reset : bool)
| Choice (l : list (R * sgate)).
(** The qubits a gate names. *)
Fixpoint operands (g : sgate) : list N :=
  match g with Act qs _ => qs | Meas q _ _ => [q] | Choice l => flat_map (fun pg => operands (snd pg)) l end.

Record sstate : Type := SState { s_psi : state; s_reg : list bool }.
Inductive soutcome : Type :=
| SDone (s : sstate)
| SThrown (s : sstate)   (* an exception; what was done before stays *)
| SOutside.              (* outside the promise: a state measured without being normalised, an undefined condition *)

(** Probability that qubit q shows b. *)
Definition shows_bit (q : N) (b : bool) (x : N) : bool := Bool.eqb (N.testbit x q) b.
Definition bit_prob (n q : N) (b : bool) (psi : state) : R := prob n (shows_bit q b) psi.
(** Projection onto "qubit q shows b", scaled to norm 1. *)
Definition projected (n q : N) (b : bool) (psi : state) : state := fun x =>
  if shows_bit q b x then Cscale (/ sqrt (bit_prob n q b psi)) (psi x) else C0.
Definition flipped (q : N) (psi : state) : state := fun x => psi (N.lxor x (2 ^ q)).
Definition measured (n q : N) (reset b : bool) (psi : state) : state :=
  if reset && b then flipped q (projected n q b psi) else projected n q b psi.
(** The outcome the number u in [0,1) stands for: 0 with probability [bit_prob false]. *)
Definition shown (n q : N) (psi : state) (u : R) : bool := if Rlt_dec u (bit_prob n q false psi) then false else true.
Definition with_bit (r : list bool) (bit : N) (b : bool) : list bool :=
  firstn (N.to_nat bit) r ++ [b] ++ skipn (N.to_nat bit + 1) r.

(** u lies in the interval of the gate g; rounding may leave the sum of the probabilities a little below 1, and
    then the rest belongs to the last gate. *)
Definition picks (l : list (R * sgate)) (u : R) (g : sgate) : Prop :=
  exists l1 p l2, l = l1 ++ (p, g) :: l2 /\ (Rsuml fst l1 <= u)%R /\ ((u < Rsuml fst l1 + p)%R \/ l2 = []).

(** One gate, given the random numbers it uses. *)
Inductive step (n : N) : sgate -> list R -> sstate -> soutcome -> Prop :=
| step_act qs f s : step n (Act qs f) [] s (SDone (SState (f (s_psi s)) (s_reg s)))
| step_measure q bit reset u s b : bit < N.of_nat (length (s_reg s)) -> sqnorm n (s_psi s) = 1%R ->
    b = shown n q (s_psi s) u ->
    step n (Meas q bit reset) [u] s (SDone (SState (measured n q reset b (s_psi s)) (with_bit (s_reg s) bit b)))
| step_no_bit q bit reset s : N.of_nat (length (s_reg s)) <= bit -> step n (Meas q bit reset) [] s (SThrown s)
| step_not_normalised q bit reset s : bit < N.of_nat (length (s_reg s)) -> sqnorm n (s_psi s) <> 1%R ->
    step n (Meas q bit reset) [] s SOutside
| step_choice l u g us s o : picks l u g -> step n g us s o -> step n (Choice l) (u :: us) s o.

(** Does the condition hold? *)
Definition holds (c : option cond) (r : list bool) : res bool := match c with None => Ok true | Some f => f r end.
(** Qubits measured and not reset, after the gate. *)
Definition unreset_after (g : sgate) (measured_qubits : list N) : list N :=
  match g with Meas q _ false => q :: measured_qubits | _ => measured_qubits end.
Definition touches (qs : list N) (g : sgate) : bool := existsb (fun q => existsb (N.eqb q) (operands g)) qs.

(** A list of gates, each with an optional condition on the classical register.  [watched] tells whether the
    gates with that condition take part in the check for qubits that were measured and not reset. *)
Inductive exec_list (watched : option cond -> bool) (n : N) :
  list (sgate * option cond) -> list N -> list R -> sstate -> soutcome -> Prop :=
| exec_nil ms s : exec_list watched n [] ms [] s (SDone s)
| exec_skip g c r ms us s o : holds c (s_reg s) = Ok false -> exec_list watched n r ms us s o ->
    exec_list watched n ((g, c) :: r) ms us s o
| exec_cond_throws g c r ms s : holds c (s_reg s) = Throw -> exec_list watched n ((g, c) :: r) ms [] s (SThrown s)
| exec_cond_undefined g c r ms s : holds c (s_reg s) = UB -> exec_list watched n ((g, c) :: r) ms [] s SOutside
| exec_touches g c r ms s : holds c (s_reg s) = Ok true -> watched c = true -> touches ms g = true ->
    exec_list watched n ((g, c) :: r) ms [] s (SThrown s)
| exec_gate g c r ms us vs s s' o : holds c (s_reg s) = Ok true -> (watched c = true -> touches ms g = false) ->
    step n g us s (SDone s') ->
    exec_list watched n r (if watched c then unreset_after g ms else ms) vs s' o ->
    exec_list watched n ((g, c) :: r) ms (us ++ vs) s o
| exec_gate_stops g c r ms us s o : holds c (s_reg s) = Ok true -> (watched c = true -> touches ms g = false) ->
    step n g us s o -> (forall s', o <> SDone s') ->
    exec_list watched n ((g, c) :: r) ms us s o.
Definition watch_all (c : option cond) : bool := true.
(** what the batched update does *)
Definition watch_unconditional (c : option cond) : bool := match c with None => true | Some _ => false end.

(** A program: gates that may depend on a named parameter, with conditions. *)
Inductive sitem : Type := SFixed (g : sgate) | SKeyed (key : string) (g : R -> sgate).
Definition program : Type := list (sitem * option cond).
Definition item_gate (ps : string -> option R) (i : sitem) : option sgate :=
  match i with SFixed g => Some g | SKeyed key g => match ps key with Some v => Some (g v) | None => None end end.
Fixpoint instantiate (ps : string -> option R) (p : program) : option (list (sgate * option cond)) :=
  match p with
  | [] => Some []
  | (i, c) :: r =>
    match item_gate ps i, instantiate ps r with Some g, Some l => Some ((g, c) :: l) | _, _ => None end
  end.
Definition item_operands (i : sitem) : list N := match i with SFixed g => operands g | SKeyed _ g => operands (g 0%R) end.
Definition program_operands (p : program) : list N := flat_map (fun ic => item_operands (fst ic)) p.
(** The whole run: too few qubits and missing parameters are rejected before anything is done. *)
Definition run_program (watched : option cond -> bool) (n : N) (ps : string -> option R) (p : program)
    (us : list R) (s : sstate) (o : soutcome) : Prop :=
  if existsb (fun q => n <=? q) (program_operands p) then us = [] /\ o = SThrown s
  else match instantiate ps p with
       | None => us = [] /\ o = SThrown s
       | Some l => exec_list watched n l [] us s o
       end.

(** Gates that keep the norm, conditions that are defined: then nothing is outside the promise. *)
Fixpoint keeps_norm (n : N) (g : sgate) : Prop :=
  match g with
  | Act _ f => forall psi, sqnorm n (f psi) = sqnorm n psi
  | Meas q _ _ => q < n
  | Choice l => fold_right (fun pg P => keeps_norm n (snd pg) /\ P) True l
  end.
Definition cond_defined (c : option cond) : Prop := forall r, holds c r <> UB.
Definition norm_kept (n : N) (ps : string -> option R) (p : program) : Prop :=
  Forall (fun ic => cond_defined (snd ic) /\ forall g, item_gate ps (fst ic) = Some g -> keeps_norm n g) p.
(** Probabilities are not negative. *)
Fixpoint proper (g : sgate) : Prop :=
  match g with
  | Choice l => fold_right (fun pg P => (0 <= fst pg)%R /\ proper (snd pg) /\ P) True l
  | _ => True
  end.

(** * Which reference gate a gate object stands for *)

Definition act_of (k : call) : sgate := Act (call_operands k) (apply_mat (call_targets k) (call_controls k) (call_matrix k)).
(** A gate made by a factory acts by its textbook matrix; an inverse by the inverse function. *)
Inductive acts : egate -> sgate -> Prop :=
| acts_factory vf k g : call_typed k -> make vf k = Ok g -> acts g (act_of k)
| acts_inverse vf k g g' f : call_typed k -> make vf k = Ok g -> call_invertible k -> get_inverse g = Ok g' ->
    (forall psi x, apply_mat (call_targets k) (call_controls k) (call_matrix k) (f psi) x = psi x) ->
    (forall psi x, f (apply_mat (call_targets k) (call_controls k) (call_matrix k) psi) x = psi x) ->
    acts g' (Act (call_operands k) f).
Definition distribution_ok (dist : list R) : Prop :=
  dist <> [] /\ Forall (fun p => 0 <= p)%R dist /\ (Rabs (Rsuml (fun p => p) dist - 1) <= / 10 ^ 6)%R.
Inductive stands : cgate -> sgate -> Prop :=
| stands_act t g s : acts g s -> stands (CElem (t, g)) s
| stands_measure q bit reset g : make_measurement q bit reset = Ok g -> stands g (Meas q bit reset)
| stands_choice t dist gs ss : distribution_ok dist -> length dist = length gs -> Forall2 stands gs ss ->
    stands (CProb t dist gs) (Choice (combine dist ss)).
(** A parametric rotation turns by pcoef * value, its inverse by - pcoef * value. *)
Definition pcall_at (k : pcall) (v : R) : call :=
  match k with
  | PCallRot k t pcoef cs vs => Call1 (rot_std k (pcoef * v)) t cs vs
  | PCallPauliRotation p pcoef cs vs => CallPauliRotation p (pcoef * v)%R cs vs
  end.
Definition pcall_opposite (k : pcall) : pcall :=
  match k with
  | PCallRot k t pcoef cs vs => PCallRot k t (- pcoef) cs vs
  | PCallPauliRotation p pcoef cs vs => PCallPauliRotation p (- pcoef)%R cs vs
  end.
Definition pcall_typed (k : pcall) : Prop := call_typed (pcall_at k 0).
Inductive pstands : cgate + pgate -> (R -> sgate) -> Prop :=
| pstands_fixed g s : stands g s -> pstands (inl g) (fun _ => s)
| pstands_factory vf k g : pcall_typed k -> make_param vf k = Ok g -> pstands (inr g) (fun v => act_of (pcall_at k v))
| pstands_inverse vf k g g' : pcall_typed k -> make_param vf k = Ok g -> p_inverse g = Ok g' ->
    pstands (inr g') (fun v => act_of (pcall_at (pcall_opposite k) v))
| pstands_choice t dist gs ss : distribution_ok dist -> length dist = length gs -> Forall2 pstands gs ss ->
    pstands (inr (PProb t dist gs)) (fun v => Choice (combine dist (map (fun s => s v) ss))).
Inductive represents : citem -> sitem -> Prop :=
| represents_gate g s : stands g s -> represents (IGate g) (SFixed s)
| represents_param g key s : pstands (inr g) s -> represents (IParam g key) (SKeyed key s).
Definition circuit_is (c : circuit) (p : program) : Prop :=
  Forall2 represents (c_gates c) (map fst p) /\ c_conds c = map snd p.

(** * Comparing worlds *)
(** The library's state after a run is the reference state, and it has used the random numbers [us]. *)
Definition shift_rand (k : nat) (r : nat -> R) : nat -> R := fun i => r (k + i)%nat.
Definition same_state (n : N) (w : world) (s : sstate) : Prop :=
  (forall x, x < 2 ^ n -> w_amp w x = s_psi s x) /\ w_reg w = s_reg s.
Definition ends_as (n : N) (o : houtcome world unit) (s : soutcome) : Prop :=
  match o, s with
  | HDone _ w, SDone s => same_state n w s
  | HThrown w, SThrown s => same_state n w s
  | _, _ => False
  end.
Definition used (w : world) (us : list R) (o : houtcome world unit) : Prop :=
  us = map (w_rand w) (seq 0 (length us)) /\
  match o with
  | HDone _ w' | HThrown w' => forall i, w_rand w' i = w_rand w (length us + i)%nat
  | HUndefined => False
  end.

(** * Probabilistic gates *)
(** Mean of a quantity over the elementary gate that a nested experiment ends up executing. *)
Fixpoint expected (F : egate -> R) (g : cgate) : R :=
  match g with
  | CElem (_, g) => F g
  | CMeas _ _ _ => 0%R
  | CProb _ dist gs => Rsuml (fun dg => (fst dg * snd dg)%R) (combine dist (map (expected F) gs))
  end.
(** Sum of the probabilities after replacing every gate that is known to be probabilistic by its alternatives. *)
Fixpoint mass (g : cgate) : R :=
  match g with CProb true dist gs => Rsuml (fun dm => (fst dm * snd dm)%R) (combine dist (map mass gs)) | _ => 1%R end.
Fixpoint has_measurement (g : cgate) : bool :=
  match g with CMeas _ _ _ => true | CProb true _ gs => existsb has_measurement gs | _ => false end.
(** The same for parametric gates, whose alternatives may be of both kinds. *)
Fixpoint pexpected (F : egate + pgate -> R) (g : pgate) : R :=
  match g with
  | PProb _ dist gs =>
    Rsuml (fun dg => (fst dg * snd dg)%R)
          (combine dist (map (fun g => match g with inl g => expected (fun g => F (inl g)) g | inr g => pexpected F g end) gs))
  | g => F (inr g)
  end.
Definition vexpected (F : egate + pgate -> R) (g : cgate + pgate) : R :=
  match g with inl g => expected (fun g => F (inl g)) g | inr g => pexpected F g end.
Fixpoint pmass (g : pgate) : R :=
  match g with
  | PProb true dist gs =>
    Rsuml (fun dm => (fst dm * snd dm)%R) (combine dist (map (fun g => match g with inl g => mass g | inr g => pmass g end) gs))
  | _ => 1%R
  end.
Definition vmass (g : cgate + pgate) : R := match g with inl g => mass g | inr g => pmass g end.
Fixpoint phas_measurement (g : pgate) : bool :=
  match g with
  | PProb true _ gs => existsb (fun g => match g with inl g => has_measurement g | inr g => phas_measurement g end) gs
  | _ => false
  end.
Definition vhas_measurement (g : cgate + pgate) : bool := match g with inl g => has_measurement g | inr g => phas_measurement g end.
Definition vacceptable (dist : list R) (gs : list (cgate + pgate)) : Prop :=
  dist <> [] /\ length dist = length gs /\ Forall (fun p => 0 <= p <= 1)%R dist /\ existsb vhas_measurement gs = false /\
  (Rabs (Rsuml (fun dg => fst dg * vmass (snd dg)) (combine dist gs) - 1) <= / 10 ^ 6)%R.
(** What a factory of probabilistic gates takes. *)
Definition acceptable (dist : list R) (gs : list cgate) : Prop :=
  dist <> [] /\ length dist = length gs /\ Forall (fun p => 0 <= p <= 1)%R dist /\ existsb has_measurement gs = false /\
  (Rabs (Rsuml (fun dg => fst dg * mass (snd dg)) (combine dist gs) - 1) <= / 10 ^ 6)%R.
(** The draw u falls into interval i of the distribution (the last one extends to 1). *)
Definition in_interval (dist : list R) (i : nat) (u : R) : Prop :=
  (Rsuml (fun p => p) (firstn i dist) <= u)%R /\
  ((u < Rsuml (fun p => p) (firstn (S i) dist))%R \/ S i = length dist).

(** Ensemble average of |phi x phi| over the alternatives, entry (x, y). *)
Definition mixed (l : list (R * (state -> state))) (psi : state) (x y : N) : C :=
  Csuml (fun pf => Cscale (fst pf) (snd pf psi x * Cconj (snd pf psi y))%C) l.
(** One experiment after the other. *)
Definition both (l1 l2 : list (R * (state -> state))) : list (R * (state -> state)) :=
  flat_map (fun a => map (fun b => ((fst a * fst b)%R, fun psi => snd b (snd a psi))) l2) l1.
Definition on_qubit (k : std1) (q : N) : state -> state := apply_mat [q] [] (std1_textbook k).
Definition nothing : state -> state := fun psi => psi.

(** * Building and inverting circuits *)
(** The calls that build a circuit; [OCircuit] appends another circuit with its own history. *)
Inductive cop : Type :=
| OGate (g : cgate)
| OParam (g : pgate) (key : string)
| OCondGate (g : cgate) (f : cond)
| OCondParam (g : pgate) (key : string) (f : cond)
| OCircuit (l : list cop).
Fixpoint build1 (c : circuit) (o : cop) : circuit :=
  match o with
  | OGate g => add_gate c g
  | OParam g key => add_param_gate c g key
  | OCondGate g f => add_conditional_gate c g f
  | OCondParam g key f => add_conditional_param_gate c g key f
  | OCircuit l => add_circuit c (fold_left build1 l c_new)
  end.
Definition build (l : list cop) : circuit := fold_left build1 l c_new.
(** What the calls say, in order. *)
Fixpoint says (o : cop) : list (citem * option cond) :=
  match o with
  | OGate g => [(IGate g, None)]
  | OParam g key => [(IParam g key, None)]
  | OCondGate g f => [(IGate g, Some f)]
  | OCondParam g key f => [(IParam g key, Some f)]
  | OCircuit l => flat_map says l
  end.
(** Gates whose get_inverse() undoes them: factory gates, neither measurements nor probabilistic gates. *)
Definition factory_made (i : citem) : Prop :=
  match i with
  | IGate (CElem (_, g)) => exists vf k, call_typed k /\ make vf k = Ok g /\ call_invertible k /\ has_inverse k = true
  | IParam g _ => exists vf k, pcall_typed k /\ make_param vf k = Ok g
  | _ => False
  end.
(** get_inverse() of these throws. *)
Definition not_invertible (i : citem) : Prop :=
  match i with
  | IGate (CElem (_, g)) => exists vf k, call_typed k /\ make vf k = Ok g /\ has_inverse k = false
  | IGate (CMeas _ _ _) => True
  | _ => False
  end.

(** * Depth *)
(** [chosen c l]: c is l with some elements left out. *)
Inductive chosen {T} : list T -> list T -> Prop :=
| chosen_nil : chosen [] []
| chosen_keep x c l : chosen c l -> chosen (x :: c) (x :: l)
| chosen_drop x c l : chosen c l -> chosen c (x :: l).
(** Gates, given by the qubits they name, each sharing a qubit with the next one. *)
Fixpoint chain (c : list (list N)) : Prop :=
  match c with
  | [] => True
  | a :: r => a <> [] /\ match r with [] => True | b :: _ => exists q, In q a /\ In q b end /\ chain r
  end.
Definition is_probabilistic (i : citem) : bool :=
  match i with IGate (CProb _ _ _) | IParam (PProb _ _ _) _ => true | _ => false end.

(** * Batches *)
(** Element b of a batch. *)
Definition element (n : N) (w : bworld) (b : N) : sstate :=
  SState (fun x => bw_amp w (b * 2 ^ n + x)) (nth (N.to_nat b) (br_regs (bw_regs w)) []).
Definition is_element (n : N) (w : bworld) (b : N) (s : sstate) : Prop :=
  (forall x, x < 2 ^ n -> s_psi (element n w b) x = s_psi s x) /\ s_reg (element n w b) = s_reg s.
(** B registers, all of the size the batched register knows. *)
Definition registers_ok (B : N) (w : bworld) : Prop :=
  N.of_nat (length (br_regs (bw_regs w))) = B /\
  Forall (fun r => N.of_nat (length r) = br_size (bw_regs w)) (br_regs (bw_regs w)).
(** The parameters of element b. *)
Definition element_params (ps : bparams) (b : N) : params :=
  fun key => match ps key with Some vs => nth_error vs (N.to_nat b) | None => None end.
Definition keyed (p : program) (key : string) : Prop := exists g c, In (SKeyed key g, c) p.
(** [use b] are the positions of the random numbers that element b uses: none is used twice. *)
Definition separate (B : N) (use : N -> list nat) : Prop :=
  (forall b, b < B -> NoDup (use b)) /\
  forall b b' i, b < B -> b' < B -> In i (use b) -> In i (use b') -> b = b'.
(** Gates that write the amplitudes where they are; the others compute into a new buffer which then replaces
    that of the state. *)
Definition stays (g : egate) : bool :=
  match g with
  | EDense _ M _ => (m_rows M =? 1) && (m_cols M =? 1) || (m_rows M =? 2) && (m_cols M =? 2) || (m_rows M =? 4) && (m_cols M =? 4)
  | ESparse _ _ => false
  | _ => true
  end.
Fixpoint cstays (g : cgate) : bool :=
  match g with CElem (_, g) => stays g | CMeas _ _ _ => true | CProb _ _ gs => forallb cstays gs end.
Fixpoint pstays (g : pgate) : bool :=
  match g with PProb _ _ gs => forallb (fun g => match g with inl g => cstays g | inr g => pstays g end) gs | _ => true end.
Definition item_stays (i : citem) : bool := match i with IGate g => cstays g | IParam g _ => pstays g end.
(** Conditional and probabilistic gates run on views of the elements. *)
Definition views_stay (c : circuit) : Prop :=
  forall i f, In (i, f) (combine (c_gates c) (c_conds c)) -> f <> None \/ is_probabilistic i = true -> item_stays i = true.
(** Programs on which the check for measured qubits does not depend on whether conditional gates take part:
    no gate is conditional, or no measurement leaves its qubit measured. *)
Definition leaves_measured (i : sitem) : bool := match i with SFixed (Meas _ _ false) => true | _ => false end.
Definition unambiguous (p : program) : Prop :=
  Forall (fun ic => snd ic = None) p \/ Forall (fun ic => leaves_measured (fst ic) = false) p.
