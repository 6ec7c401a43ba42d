(** Several state objects at once.

    StateVector and StateVectorBatched hold their amplitudes in a Kokkos::View, a reference-counted pointer to a buffer.  The
    copy constructor and operator= are the default ones (state_vector.hpp:35-37; implicit in state_vector_batched.hpp:13-60): they copy the
    pointer.  copy() allocates.  view_state_vector_at() makes an object that points into the buffer of a batch.  The updates of
    multi_dense_matrix_gate and sparse_matrix_gate end with std::swap(state._raw, update._raw) (update_ops_matrix.cpp:262, 319):
    the object then points to another buffer, the other objects do not.

    The memory is a list of buffers; buffers are never freed here (in C++: when the last view of them goes).  The padding
    between the rows of a batch (state_vector_batched.cpp:9-16) is left out, as in State.v. *)
From Verif Require Export StateSpec Circuit.

Inductive shape : Type := Single (n : N) | Batch (B n : N).
Definition qubits (s : shape) : N := match s with Single n => n | Batch _ n => n end.
Definition size (s : shape) : N := match s with Single n => 2 ^ n | Batch B n => B * 2 ^ n end.
(** what an object is: its sizes, the buffer it points to, where in the buffer *)
Record obj : Type := Obj { o_shape : shape; o_buf : nat; o_off : N }.
Record store : Type := Store { st_heap : nat -> state; st_next : nat; st_env : nat -> option obj; st_rand : nat -> R }.

Definition content (st : store) (o : obj) : state := fun a => st_heap st (o_buf o) (o_off o + a).
Definition put (m : state) (off len : N) (psi : state) : state :=
  fun a => if (off <=? a) && (a <? off + len) then psi (a - off) else m a.
Definition put_at {T} (f : nat -> T) (k : nat) (v : T) : nat -> T := fun i => if Nat.eqb i k then v else f i.
Definition name (x : nat) (o : obj) (st : store) : store :=
  Store (st_heap st) (st_next st) (put_at (st_env st) x (Some o)) (st_rand st).
(** a new buffer with the contents psi *)
Definition fresh (x : nat) (s : shape) (psi : state) (st : store) : store :=
  Store (put_at (st_heap st) (st_next st) psi) (S (st_next st)) (put_at (st_env st) x (Some (Obj s (st_next st) 0))) (st_rand st).
(** The store after a method of object x = o that left the world w'. *)
Definition settle (x : nat) (o : obj) (w' : world) (st : store) : store :=
  let back psi := put_at (st_heap st) (o_buf o) (put (st_heap st (o_buf o)) (o_off o) (size (o_shape o)) psi) in
  match w_home w' with
  | None => Store (back (w_amp w')) (st_next st) (st_env st) (w_rand w')
  | Some home => fresh x (o_shape o) (w_amp w') (Store (back home) (st_next st) (st_env st) (w_rand w'))
  end.
(** Run a method on the amplitudes of an object, with the register [reg]. *)
Definition method (x : nat) (o : obj) (reg : list bool) (p : host world unit) : host store unit := fun st r =>
  exists r', p (World (content st o) None reg (st_rand st)) r' /\
    r = match r' with
        | HDone _ w' => HDone tt (settle x o w' st)
        | HThrown w' => HThrown (settle x o w' st)
        | HUndefined => HUndefined
        end.
(** a name that is not bound: not a C++ program *)
Definition lookup (x : nat) : host store obj := fun st r =>
  match st_env st x with Some o => r = HDone o st | None => r = HUndefined end.
Definition alloc (x : nat) (s : shape) : host store unit := fun st r => exists junk, r = HDone tt (fresh x s junk st).

Inductive oop : Type :=
| ONew (x : nat) (s : shape)                   (* StateVector x(n); StateVectorBatched x(B, n); *)
| OAssign (x y : nat)                          (* x = y; *)
| OCopy (x y : nat)                            (* x = y.copy(); *)
| OVec (x : nat) (m : sop)                     (* a method of a StateVector that involves no other state *)
| OBat (x : nat) (m : bop)                     (* ... of a StateVectorBatched *)
| OAdd (x : nat) (c : C) (y : nat)             (* x.add_state_vector_with_coef(c, y); *)
| OLoad (x y : nat)                            (* x.load(y); *)
| OApply (x : nat) (vf : bool) (k : call)       (* gate::...( ).update_quantum_state(x); *)
| ORun (x : nat) (ps : params) (c : circuit) (reg : list bool)  (* c.update_quantum_state(x, register, ps, ..); *)
| OView (x s : nat) (b : N)                    (* x = s.view_state_vector_at(b); *)
| OGetAt (x s : nat) (b : N)                   (* x = s.get_state_vector_at(b); *)
| OSetAt (s : nat) (b : N) (y : nat)           (* s.set_state_vector_at(b, y); *)
| OSetAll (s y : nat).                         (* s.set_state_vector(y); *)

Section Step.
  Variable L : N.   (* SIMD lanes *)
  (** do two objects point to the same place?  (A view and its batch do not: no method takes both kinds, except
      set_state_vector and set_state_vector_at, below.) *)
  Definition same_place (o1 o2 : obj) : bool := Nat.eqb (o_buf o1) (o_buf o2) && (o_off o1 =? o_off o2).
  (** gate.hpp: update_quantum_state on either kind of state *)
  Definition object_gate (s : shape) (g : egate) : host world unit :=
    p <~ hlift (update_plan (qubits s) (size s) L g);; hplan (size s) p.
  (** state_vector_batched.cpp:31-44 when the argument is a view of this batch: iteration (b, i) reads the row of the view *)
  Definition set_all_from_row (B n row : N) : host world unit :=
    hplan (B * 2 ^ n) (InPlace [Kernel (B * 2 ^ n) (fun a => Rd (row + N.land a (2 ^ n - 1)) (fun v => Wr a v Ret))]).

  Definition ostep (op : oop) : host store unit :=
    match op with
    | ONew x s =>
      (* state_vector.cpp:6-16, state_vector_batched.cpp:18-26 *)
      alloc x s;~ o <~ lookup x;;
      method x o [] (match s with Single n => set_zero_state n | Batch B n => b_set_zero_state B n end)
    | OAssign x y => o <~ lookup y;; hmodify (name x o)
    | OCopy x y =>
      (* state_vector.cpp:303-308, state_vector_batched.cpp:488-493 *)
      o <~ lookup y;; alloc x (o_shape o);~ o' <~ lookup x;;
      (fun st r => r = HDone tt (Store (put_at (st_heap st) (o_buf o') (put (st_heap st (o_buf o')) 0 (size (o_shape o)) (content st o)))
                                       (st_next st) (st_env st) (st_rand st)))
    | OVec x m => o <~ lookup x;; method x o [] (match o_shape o with Single n => run_sop n m | Batch _ _ => hundefined end)
    | OBat x m => o <~ lookup x;; method x o [] (match o_shape o with Batch B n => run_bop B n m | Single _ => hundefined end)
    | OAdd x c y =>
      o1 <~ lookup x;; o2 <~ lookup y;; psi <~ hget (fun st => content st o2);;
      method x o1 [] (match o_shape o1, o_shape o2 with
                      | Single n, Single m => run_sop n (SAdd c (same_place o1 o2) m psi)
                      | Batch B n, Batch B2 m => run_bop B n (BoAdd c (same_place o1 o2) B2 m psi)
                      | _, _ => hundefined
                      end)
    | OLoad x y =>
      (* state_vector.cpp:294-302, state_vector_batched.cpp:474-487 *)
      o1 <~ lookup x;; o2 <~ lookup y;; psi <~ hget (fun st => content st o2);;
      method x o1 [] (match o_shape o1, o_shape o2 with
                      | Single n, Single m => run_sop n (SLoad (map psi (seqN (2 ^ m))))
                      | Batch B n, Batch B2 m => if negb (B2 =? B) then hthrow else if negb (2 ^ m =? 2 ^ n) then hthrow else run_bop B n (BoLoad (map (fun b => map (batch m b psi) (seqN (2 ^ m))) (seqN B2)))
                      | _, _ => hundefined
                      end)
    | OApply x vf k => o <~ lookup x;; g <~ hlift (make vf k);; method x o [] (object_gate (o_shape o) g)
    | ORun x ps c reg => o <~ lookup x;; method x o reg (match o_shape o with Single n => circuit_update n L ps c | Batch _ _ => hundefined end)
    | OView x s b =>
      (* state_vector_batched.cpp:66-75 *)
      o <~ lookup s;;
      match o_shape o with
      | Batch B n => if B <=? b then hthrow else hmodify (name x (Obj (Single n) (o_buf o) (o_off o + b * 2 ^ n)))
      | Single _ => hundefined
      end
    | OGetAt x s b =>
      (* state_vector_batched.cpp:77-91 *)
      o <~ lookup s;;
      match o_shape o with
      | Batch B n =>
        if B <=? b then hthrow
        else psi <~ hget (fun st => batch n b (content st o));; alloc x (Single n);~ o' <~ lookup x;;
             method x o' [] (run_sop n (SLoad (map psi (seqN (2 ^ n)))))
      | Single _ => hundefined
      end
    | OSetAt s b y =>
      (* the kernel reads element i of y and writes element i of row b: the same element or two of which one is only read *)
      o1 <~ lookup s;; o2 <~ lookup y;; psi <~ hget (fun st => content st o2);;
      method s o1 [] (match o_shape o1, o_shape o2 with
                      | Batch B n, Single m => run_bop B n (BoSetAt b m psi)
                      | _, _ => hundefined
                      end)
    | OSetAll s y =>
      o1 <~ lookup s;; o2 <~ lookup y;; psi <~ hget (fun st => content st o2);;
      method s o1 [] (match o_shape o1, o_shape o2 with
                      | Batch B n, Single m =>
                        if Nat.eqb (o_buf o1) (o_buf o2) then set_all_from_row B n (o_off o2 - o_off o1) else run_bop B n (BoSet m psi)
                      | _, _ => hundefined
                      end)
    end.
  Definition orun (l : list oop) : host store unit := fold_right (fun o p => ostep o;~ p) (hret tt) l.
End Step.
(** no objects yet *)
Definition start (h : nat -> state) (r : nat -> R) : store := Store h 0 (fun _ => None) r.
