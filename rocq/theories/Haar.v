(** Random states: StateVector, StateVectorBatched and DensityMatrix::Haar_random_state / set_Haar_random_state.

    The amplitudes are filled in parallel from a pool of generators.  An iteration takes a generator that no
    other iteration holds, draws two normal numbers, stores them and gives the generator back.  Which free
    generator an iteration gets, and when, is up to Kokkos: the model allows every choice.

    Not modelled: how a generator computes its numbers (Kokkos::Random_XorShift64 and its polar method), and
    how the seed initialises the pool.  [draw g k] stands for the k-th number that normal(0., 1.) of generator
    g returns after the pool was made from the seed in use; it is real, not rounded. *)
From Verif Require Export State Density.
Open Scope N_scope.

(** The progress of one iteration of the loops at state_vector.cpp:79-84, 91-96 and
    state_vector_batched.cpp:209-214: not begun; holding generator g; having drawn one number; having drawn
    both; having stored them; having given the generator back. *)
Inductive phase : Type :=
| Todo | Got (g : nat) | Half (g : nat) (v : R) | Full (g : nat) (c : C) | Wrote (g : nat) | Freed.
(** The pool and the buffer: how many numbers each generator has produced, and whether it is taken. *)
Record pool : Type := Pool { p_at : N -> phase; p_used : nat -> nat; p_busy : nat -> bool; p_raw : state }.

Section Fill.
  (** size of the pool, its numbers, and the order in which the two arguments of ComplexType are evaluated,
      which C++ leaves open *)
  Variables (gens : nat) (draw : nat -> nat -> R) (imag_first : bool).
  (** number of amplitudes to fill *)
  Variable D : N.

  Definition set_phase (i : N) (ph : phase) (f : N -> phase) : N -> phase := upd N.eqb f i ph.
  (** the complex number of the drawn pair *)
  Definition pair_up (first second : R) : C := if imag_first then (second, first) else (first, second).

  (** one step of one iteration: get_state(); normal(); normal(); the store; free_state() *)
  Inductive fill_step : pool -> pool -> Prop :=
  | s_get i g p : i < D -> p_at p i = Todo -> (g < gens)%nat -> p_busy p g = false ->
      fill_step p (Pool (set_phase i (Got g) (p_at p)) (p_used p) (upd Nat.eqb (p_busy p) g true) (p_raw p))
  | s_first i g p : i < D -> p_at p i = Got g ->
      fill_step p (Pool (set_phase i (Half g (draw g (p_used p g))) (p_at p)) (upd Nat.eqb (p_used p) g (S (p_used p g)))
                        (p_busy p) (p_raw p))
  | s_second i g v p : i < D -> p_at p i = Half g v ->
      fill_step p (Pool (set_phase i (Full g (pair_up v (draw g (p_used p g)))) (p_at p))
                        (upd Nat.eqb (p_used p) g (S (p_used p g))) (p_busy p) (p_raw p))
  | s_store i g c p : i < D -> p_at p i = Full g c ->
      fill_step p (Pool (set_phase i (Wrote g) (p_at p)) (p_used p) (p_busy p) (upd N.eqb (p_raw p) i c))
  | s_free i g p : i < D -> p_at p i = Wrote g ->
      fill_step p (Pool (set_phase i Freed (p_at p)) (p_used p) (upd Nat.eqb (p_busy p) g false) (p_raw p)).

  (** a fresh pool *)
  Definition fill_start (junk : state) : pool := Pool (fun _ => Todo) (fun _ => 0%nat) (fun _ => false) junk.
  Definition fill_done (p : pool) : Prop := forall i, i < D -> p_at p i = Freed.
  (** executions of k steps *)
  Inductive fill_exec : nat -> pool -> pool -> Prop :=
  | e_nil p : fill_exec 0 p p
  | e_step k p q r : fill_exec k p q -> fill_step q r -> fill_exec (S k) p r.
  (** executions that begin an iteration only when every earlier iteration is over, as a serial loop does *)
  Definition in_order (p : pool) : Prop := forall i j, j < i -> i < D -> p_at p i <> Todo -> p_at p j = Freed.
  Inductive serial_exec : nat -> pool -> pool -> Prop :=
  | se_nil p : serial_exec 0 p p
  | se_step k p q r : serial_exec k p q -> fill_step q r -> in_order r -> serial_exec (S k) p r.

  (** the parallel loop: any execution that completes *)
  Definition haar_fill : host world unit := fun w o =>
    exists k p, fill_exec k (fill_start (w_amp w)) p /\ fill_done p /\ o = HDone tt (set_amp (p_raw p) w).
  Definition haar_fill_serial : host world unit := fun w o =>
    exists k p, serial_exec k (fill_start (w_amp w)) p /\ fill_done p /\ o = HDone tt (set_amp (p_raw p) w).
End Fill.

Section Haar.
  Variables (gens : nat) (draw : nat -> nat -> R) (imag_first : bool).
  (** state_vector.cpp:70-99.  For ExecutionSpace::HostSerial the loop runs on DefaultHostExecutionSpace, into
      a temporary that is copied back; the copy is not modelled. *)
  Definition set_Haar_random_state (n : N) : host world unit := haar_fill gens draw imag_first (2 ^ n);~ normalize n.
  (** the same with the loop run serially *)
  Definition set_Haar_random_state_serial (n : N) : host world unit := haar_fill_serial gens draw imag_first (2 ^ n);~ normalize n.

  (** state_vector.cpp:31-37: the state is uninitialised before it is filled.  The state made is handed to [k]. *)
  Definition with_Haar_random_state {W T} (n : N) (k : state -> host W T) : host W T := fun w o =>
    exists junk o1, set_Haar_random_state n (World junk None [] (fun _ => 0%R)) o1 /\
      match o1 with
      | HDone _ w1 => k (w_amp w1) w o
      | HThrown _ => o = HThrown w
      | HUndefined => o = HUndefined
      end.
  (** density_matrix.cpp:216-221; also Haar_random_state (178-182) *)
  Definition dm_set_Haar_random_state (n : N) : host dmw unit :=
    with_Haar_random_state n (fun psi => set_herm true;~ dm_load_state n n psi).
  (** state_vector_batched.cpp:111-115, 196-219.  The pool made at 203 is not used when set_same_state is
      true: the single state makes its own from the same seed.  The iterations of the MDRange over (b, i) are
      numbered b * 2^n + i, which is where they store. *)
  Definition b_set_Haar_random_state (B n : N) (set_same_state : bool) : host world unit :=
    if set_same_state then with_Haar_random_state n (fun psi => b_set_state_vector B n n psi)
    else haar_fill gens draw imag_first (B * 2 ^ n);~ b_normalize B n.
End Haar.
