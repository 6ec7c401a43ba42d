(** Host programs.

    The methods of StateVector, the measurement and probabilistic gates and the circuits are host code that
    launches parallel kernels and reductions, draws random numbers, reads and writes the classical register
    and may throw.  A host program is the relation between the world before and the possible outcomes: a
    schedule, the contents of a fresh buffer and the shape of a reduction are chosen arbitrarily, so a program
    has many executions.  Undefined behaviour is an outcome. *)
From Verif Require Export Gates Reduce.

Section Host.
  Context {W : Type}.
  Inductive houtcome (T : Type) : Type :=
  | HDone (t : T) (w : W)
  | HThrown (w : W)
  | HUndefined.
  Arguments HDone {T}. Arguments HThrown {T}. Arguments HUndefined {T}.
  (** [p w o]: started in [w] the program may end with [o] *)
  Definition host (T : Type) : Type := W -> houtcome T -> Prop.

  Definition hret {T} (t : T) : host T := fun w o => o = HDone t w.
  Definition hthrow {T} : host T := fun w o => o = HThrown w.
  Definition hundefined {T} : host T := fun _ o => o = HUndefined.
  Definition hbind {T U} (p : host T) (k : T -> host U) : host U := fun w o =>
    exists o1, p w o1 /\
      match o1 with
      | HDone t w1 => k t w1 o
      | HThrown w1 => o = HThrown w1
      | HUndefined => o = HUndefined
      end.
  (** a pure step that may throw *)
  Definition hlift {T} (x : res T) : host T :=
    match x with Ok t => hret t | Throw => hthrow | UB => hundefined end.
  Definition hget {T} (f : W -> T) : host T := fun w o => o = HDone (f w) w.
  Definition hmodify (f : W -> W) : host unit := fun w o => o = HDone tt (f w).
  (** if (bad) throw std::runtime_error(..) *)
  Definition hcheck (ok : bool) : host unit := if ok then hret tt else hthrow.

  (** [runs p w Q]: the program has an outcome, and every outcome satisfies Q. *)
  Definition runs {T} (p : host T) (w : W) (Q : houtcome T -> Prop) : Prop :=
    (forall o, p w o -> Q o) /\ exists o, p w o.

  Lemma runs_ret {T} (t : T) w (Q : houtcome T -> Prop) : Q (HDone t w) -> runs (hret t) w Q.
  Proof. intros H. split; [intros o ->; exact H|eexists; reflexivity]. Qed.
  Lemma runs_throw {T} w (Q : houtcome T -> Prop) : Q (HThrown w) -> runs hthrow w Q.
  Proof. intros H. split; [intros o ->; exact H|eexists; reflexivity]. Qed.
  Lemma runs_get {T} (f : W -> T) w (Q : houtcome T -> Prop) : Q (HDone (f w) w) -> runs (hget f) w Q.
  Proof. intros H. split; [intros o ->; exact H|eexists; reflexivity]. Qed.
  Lemma runs_modify f w (Q : houtcome unit -> Prop) : Q (HDone tt (f w)) -> runs (hmodify f) w Q.
  Proof. intros H. split; [intros o ->; exact H|eexists; reflexivity]. Qed.
  Lemma runs_bind {T U} (p : host T) (k : T -> host U) w (Q1 : houtcome T -> Prop) (Q : houtcome U -> Prop) :
    runs p w Q1 ->
    (forall t w1, Q1 (HDone t w1) -> runs (k t) w1 Q) ->
    (forall w1, Q1 (HThrown w1) -> Q (HThrown w1)) ->
    (Q1 HUndefined -> Q HUndefined) ->
    runs (hbind p k) w Q.
  Proof.
    intros [H1 [o1 Ho1]] HD HT HU. split.
    - intros o (o' & Ho' & Hk). specialize (H1 _ Ho'). destruct o' as [t w1|w1|].
      + exact (proj1 (HD t w1 H1) o Hk).
      + subst o. auto.
      + subst o. auto.
    - specialize (H1 _ Ho1). destruct o1 as [t w1|w1|].
      + destruct (HD t w1 H1) as [_ [o Ho]]. exists o. exists (HDone t w1). auto.
      + exists (HThrown w1). exists (HThrown w1). auto.
      + exists HUndefined. exists HUndefined. auto.
  Qed.
  (** sequencing when the first part only completes normally *)
  Definition done {T} (P : T -> W -> Prop) : houtcome T -> Prop :=
    fun o => match o with HDone t w => P t w | _ => False end.
  Lemma runs_bind_done {T U} (p : host T) (k : T -> host U) w P (Q : houtcome U -> Prop) :
    runs p w (done P) -> (forall t w1, P t w1 -> runs (k t) w1 Q) -> runs (hbind p k) w Q.
  Proof. intros H1 H2. eapply runs_bind; [exact H1|exact H2|intros ? []|intros []]. Qed.
  Lemma runs_weaken {T} (p : host T) w (Q Q' : houtcome T -> Prop) :
    runs p w Q -> (forall o, Q o -> Q' o) -> runs p w Q'.
  Proof. intros [H1 H2] H. split; auto. Qed.
  Lemma runs_both {T} (p : host T) w (Q Q' : houtcome T -> Prop) :
    runs p w Q -> runs p w Q' -> runs p w (fun o => Q o /\ Q' o).
  Proof. intros [H1 H2] [H3 _]. split; auto. Qed.
  Lemma runs_check ok w (Q : houtcome unit -> Prop) : (if ok : bool then Q (HDone tt w) else Q (HThrown w)) -> runs (hcheck ok) w Q.
  Proof. destruct ok; intros H; [now apply runs_ret|now apply runs_throw]. Qed.
End Host.
Arguments houtcome W T : clear implicits.
Arguments host W T : clear implicits.
Arguments HDone {W T}. Arguments HThrown {W T}. Arguments HUndefined {W T}.
Declare Scope host_scope.
Delimit Scope host_scope with host.
Notation "x <~ p ;; k" := (hbind p (fun x => k)) (at level 61, p at next level, right associativity) : host_scope.
Notation "p ;~ k" := (hbind p (fun _ => k)) (at level 61, right associativity) : host_scope.
Open Scope host_scope.

(** ** One state and its context *)

(** The world of a state-vector program: the amplitudes the StateVector object refers to; [w_home], when the
    object was made by view_state_vector_at and its buffer has been replaced by std::swap, the contents of
    the batch element it no longer refers to; the classical register; the numbers the random engine of the
    execution context will produce next, uniform in [0,1). *)
Record world : Type := World { w_amp : state; w_home : option state; w_reg : list bool; w_rand : nat -> R }.
Definition set_amp (psi : state) (w : world) : world := World psi (w_home w) (w_reg w) (w_rand w).
Definition set_reg (r : list bool) (w : world) : world := World (w_amp w) (w_home w) r (w_rand w).

(** Launch the kernels of a plan on the D amplitudes.  A buffered plan ends with
    std::swap(state._raw, update._raw) (update_ops_matrix.cpp:261, 318): the object now refers to the new
    buffer and what it referred to before keeps its contents. *)
Definition hplan (D : N) (p : plan) : host world unit := fun w o =>
  exists junk scheds,
    match run_plan D p junk scheds (w_amp w) with
    | Finished psi =>
      o = HDone tt (match p with
                    | InPlace _ => set_amp psi w
                    | Buffered _ => World psi (match w_home w with Some h => Some h | None => Some (w_amp w) end)
                                          (w_reg w) (w_rand w)
                    end)
    | Unfinished => False
    | OutOfBounds | DataRace => o = HUndefined
    end.
(** Kokkos::parallel_reduce over [iters] iterations that read the D amplitudes *)
Definition hsum {T} (zero : T) (add : T -> T -> T) (D iters : N) (f : N -> rprog C N T) : host world T := fun w o =>
  exists t, reduction_of (seqN iters) t /\
    o = match reduce zero add (fun i => rrun (fun a => a <? D) (w_amp w) (f i)) t with
        | Some v => HDone v w
        | None => HUndefined
        end.
(** one number of the random engine *)
Definition hdraw : host world R := fun w o =>
  o = HDone (w_rand w 0%nat) (World (w_amp w) (w_home w) (w_reg w) (fun k => w_rand w (S k))).
