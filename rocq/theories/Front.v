(** The calls a user makes: the public overloads of update_quantum_state of gates, and the functions behind
    update_quantum_state in Python.  Modelled from the values nanobind has converted to the C++ variants; choosing
    the overload and converting the arguments is nanobind's work and is not modelled. *)
From Verif Require Export Circuit.
Open Scope N_scope.
Open Scope host_scope.

(** ** Seeds.  [engine s] is what std::mt19937_64(s) followed by uniform draws gives. *)
Definition with_rand (r : nat -> R) (w : world) : world := World (w_amp w) (w_home w) (w_reg w) r.
Definition bwith_rand (r : nat -> R) (w : bworld) : bworld := BWorld (bw_amp w) (bw_regs w) r.
Definition bwith_regs (r : breg) (w : bworld) : bworld := BWorld (bw_amp w) r (bw_rand w).
(** util/random.hpp:11-16 resolve_seed; random_device gives any 32-bit number *)
Definition resolved (seed : option N) (s : N) : Prop := match seed with Some s' => s = s' | None => s < 2 ^ 32 end.

Section Calls.
  Variables (engine : N -> nat -> R) (n B L : N).
  Definition seeded (seed : option N) (p : host world unit) : host world unit := fun w o =>
    exists s, resolved seed s /\ p (with_rand (engine s) w) o.
  Definition b_seeded (seed : option N) (p : host bworld unit) : host bworld unit := fun w o =>
    exists s, resolved seed s /\ p (bwith_rand (engine s) w) o.

  (** gate.hpp:313-319, 348-354: ClassicalRegister(0), a random seed *)
  Definition gate_call_default (g : cgate) : host world unit := hmodify (set_reg []);~ seeded None (cgate_update n L g).
  (** gate.hpp:320-327, 355-362 *)
  Definition gate_call (g : cgate) (seed : option N) : host world unit := seeded seed (cgate_update n L g).
  (** gate.hpp:328-334, 363-369 *)
  Definition b_gate_call_default (g : cgate) : host bworld unit :=
    hmodify (bwith_regs (breg_new 0 B));~ b_seeded None (b_cgate_update n B L g).
  (** gate.hpp:335-347, 370-382 *)
  Definition b_gate_call (g : cgate) (seed : option N) : host bworld unit :=
    regs <~ hget bw_regs;;
    hcheck (N.of_nat (length (br_regs regs)) =? B);~ b_seeded seed (b_cgate_update n B L g).

  (** param_gate.hpp:120-127, 164-171 *)
  Definition pgate_call_default (g : pgate) (v : R) : host world unit :=
    hmodify (set_reg []);~ seeded None (pgate_update n L g v).
  (** param_gate.hpp:128-136, 172-180 *)
  Definition pgate_call (g : pgate) (v : R) (seed : option N) : host world unit := seeded seed (pgate_update n L g v).
  (** param_gate.hpp:137-144, 181-188: the number of parameters is not looked at *)
  Definition b_pgate_call_default (g : pgate) (vs : list R) : host bworld unit :=
    hmodify (bwith_regs (breg_new 0 B));~ b_seeded None (b_pgate_update n B L g vs).
  (** param_gate.hpp:145-163, 189-207 *)
  Definition b_pgate_call (g : pgate) (vs : list R) (seed : option N) : host bworld unit :=
    regs <~ hget bw_regs;;
    hcheck (N.of_nat (length (br_regs regs)) =? B);~
    hcheck (N.of_nat (length vs) =? B);~
    b_seeded seed (b_pgate_update n B L g vs).

  (** circuit.cpp:78-140, with the seed *)
  Definition circuit_call_default (ps : params) (c : circuit) (seed : option N) : host world unit :=
    seeded seed (circuit_update_plain n L ps c).
  Definition circuit_call (ps : params) (c : circuit) (seed : option N) : host world unit :=
    seeded seed (circuit_update n L ps c).
  (** circuit.cpp:142-157 *)
  Definition b_circuit_call_default (ps : bparams) (c : circuit) (seed : option N) : host bworld unit :=
    if has_classical_instructions c then hthrow
    else hmodify (bwith_regs (breg_new 0 B));~ b_seeded seed (b_circuit_update n B L ps c).
  (** circuit.cpp:160-232 *)
  Definition b_circuit_call (ps : bparams) (c : circuit) (seed : option N) : host bworld unit :=
    b_seeded seed (b_circuit_update n B L ps c).

  (** ** Python.  gate.hpp:676-677 ClassicalRegisterVariant; the register itself is the one of the world *)
  Inductive regarg : Type := NoRegister | OneRegister | BatchRegister.
  (** param_gate.hpp:385 ParamValueVariant *)
  Inductive valarg : Type := NoValue | OneValue (v : R) | Values (vs : list R).

  (** gate.hpp:691-714 *)
  Definition py_gate (g : cgate) (reg : regarg) (seed : option N) : host world unit :=
    match reg with
    | NoRegister => match seed with Some s => hmodify (set_reg []);~ gate_call g (Some s) | None => gate_call_default g end
    | OneRegister => gate_call g seed
    | BatchRegister => hthrow
    end.
  (** gate.hpp:717-740 *)
  Definition py_b_gate (g : cgate) (reg : regarg) (seed : option N) : host bworld unit :=
    match reg with
    | NoRegister =>
      match seed with Some s => hmodify (bwith_regs (breg_new 0 B));~ b_gate_call g (Some s) | None => b_gate_call_default g end
    | OneRegister => hthrow
    | BatchRegister => b_gate_call g seed
    end.
  (** param_gate.hpp:387-417 *)
  Definition py_pgate (g : pgate) (param : valarg) (reg : regarg) (seed : option N) : host world unit :=
    match param with
    | OneValue v =>
      match reg with
      | NoRegister => match seed with Some s => hmodify (set_reg []);~ pgate_call g v (Some s) | None => pgate_call_default g v end
      | OneRegister => pgate_call g v seed
      | BatchRegister => hthrow
      end
    | _ => hthrow
    end.
  (** param_gate.hpp:419-451 *)
  Definition py_b_pgate (g : pgate) (param : valarg) (reg : regarg) (seed : option N) : host bworld unit :=
    match param with
    | Values vs =>
      match reg with
      | NoRegister =>
        match seed with Some s => hmodify (bwith_regs (breg_new 0 B));~ b_pgate_call g vs (Some s) | None => b_pgate_call_default g vs end
      | OneRegister => hthrow
      | BatchRegister => b_pgate_call g vs seed
      end
    | _ => hthrow
    end.

  (** circuit.hpp:214-217 CircuitParameterVariant; an empty dict is the batched alternative, which is tried first *)
  Inductive dictarg : Type := NoDict | BatchedDict (l : list (string * list R)) | SingleDict (l : list (string * R)).
  (** what a keyword argument holds: nb::cast<double> takes numbers, nb::cast<std::vector<double>> sequences of
      numbers; both throw otherwise *)
  Inductive pyval : Type := PyNumber (v : R) | PySequence (vs : list R) | PyOther.
  (** std::map::operator[] *)
  Definition put {T} (k : string) (v : T) (m : string -> option T) : string -> option T :=
    fun k' => if String.eqb k' k then Some v else m k'.
  Definition table {T} (l : list (string * T)) : string -> option T :=
    fun k => match find (fun e => String.eqb (fst e) k) l with Some e => Some (snd e) | None => None end.
  (** the loops circuit.hpp:236-243 and 279-286 *)
  Fixpoint add_keywords {T} (cast : pyval -> res T) (given : bool) (kw : list (string * pyval)) (m : string -> option T) :
    res (string -> option T) :=
    match kw with
    | [] => Ok m
    | (k, v) :: r => if given then Throw else x <- cast v ;; add_keywords cast given r (put k x m)
    end.
  Definition cast_number (v : pyval) : res R := match v with PyNumber x => Ok x | _ => Throw end.
  Definition cast_sequence (v : pyval) : res (list R) := match v with PySequence x => Ok x | _ => Throw end.
  Definition is_given (d : dictarg) : bool := match d with NoDict => false | _ => true end.

  (** circuit.hpp:219-260 *)
  Definition py_circuit (c : circuit) (reg : regarg) (d : dictarg) (seed : option N) (kw : list (string * pyval)) : host world unit :=
    ps0 <~ hlift (match d with
                  | SingleDict l => Ok (table l)
                  | BatchedDict [] => Ok (fun _ => None)
                  | BatchedDict _ => Throw
                  | NoDict => Ok (fun _ => None)
                  end);;
    ps <~ hlift (add_keywords cast_number (is_given d) kw ps0);;
    match reg with
    | NoRegister => circuit_call_default ps c seed
    | OneRegister => circuit_call ps c seed
    | BatchRegister => hthrow
    end.
  (** circuit.hpp:262-303 *)
  Definition py_b_circuit (c : circuit) (reg : regarg) (d : dictarg) (seed : option N) (kw : list (string * pyval)) : host bworld unit :=
    ps0 <~ hlift (match d with
                  | BatchedDict l => Ok (table l)
                  | SingleDict [] => Ok (fun _ => None)
                  | SingleDict _ => Throw
                  | NoDict => Ok (fun _ => None)
                  end);;
    ps <~ hlift (add_keywords cast_sequence (is_given d) kw ps0);;
    match reg with
    | NoRegister => b_circuit_call_default ps c seed
    | OneRegister => hthrow
    | BatchRegister => b_circuit_call ps c seed
    end.
End Calls.
