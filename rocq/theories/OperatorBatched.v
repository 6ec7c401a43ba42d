(** OperatorBatched: include/scaluq/operator/operator_batched.hpp, src/operator/operator_batched.cpp, and the
    apply_pauli of include/scaluq/operator/apply_pauli.hpp that works on a batch of operators. *)
From Verif Require Export Operator Atomic.

(** operator_batched.hpp:138-140: _ops and _row_ptr; the extents of the views are the lengths.  As for Operator,
    an object is a value: memory shared between copies of a View is not modelled. *)
Record opbatch : Type := OB { ob_ops : list pauli; ob_row : list N }.
Definition lenN {T} (l : list T) : N := N.of_nat (length l).

(** row_ptr_h: 0, then push_back(back() + size) for every size *)
Fixpoint scan (acc : N) (sizes : list N) : list N :=
  acc :: match sizes with [] => [] | s :: r => scan (acc + s) r end.

(** operator_batched.hpp:20 default constructor: both views have extent 0 *)
Definition ob_default : opbatch := OB [] [].
(** operator_batched.hpp:21-39 OperatorBatched(vector<vector<Pauli>>) *)
Definition ob_of_lists (l : list (list pauli)) : opbatch := OB (concat l) (scan 0 (map lenN l)).
(** operator_batched.hpp:40-58 OperatorBatched(vector<Operator>): the deep_copies fill the consecutive ranges
    row_ptr_h[i] .. row_ptr_h[i+1] *)
Definition ob_of_operators (l : list operator) : opbatch := ob_of_lists (map o_terms l).
(** operator_batched.cpp:9-19 copy; 399-421 copy_to_default_space, copy_to_host_space *)
Definition ob_copy (o : opbatch) : opbatch := o.
(** operator_batched.cpp:22-56 load: deep_copy into the existing _row_ptr throws when the extents differ *)
Definition ob_load (o : opbatch) (l : list (list pauli)) : res opbatch :=
  if lenN (ob_row o) =? lenN l + 1 then Ok (ob_of_lists l) else Throw.
Definition ob_load_operators (o : opbatch) (l : list operator) : res opbatch := ob_load o (map o_terms l).
(** operator_batched.hpp:65 batch_size: unsigned subtraction *)
Definition ob_batch_size (o : opbatch) : N := sub64 (lenN (ob_row o)) 1.

(** The pairs (_row_ptr(b), _row_ptr(b+1)) for b < _row_ptr.extent(0) - 1.  With extent 0 that bound is 2^64 - 1 and
    the first access is outside the view. *)
Definition rows (o : opbatch) : res (list (N * N)) :=
  match ob_row o with [] => UB | r :: rest => Ok (combine (r :: rest) rest) end.
(** Kokkos::subview(_ops, make_pair(begin, end)) *)
Definition slice (l : list pauli) (b e : N) : list pauli := firstn (N.to_nat (e - b)) (skipn (N.to_nat b) l).

(** operator_batched.cpp:363-377 get_operator_at; Operator(n_terms) leaves _is_hermitian at true *)
Definition ob_get_operator_at (o : opbatch) (index : N) : res operator :=
  if ob_batch_size o <=? index then Throw
  else match nth_error (ob_row o) (N.to_nat index), nth_error (ob_row o) (N.to_nat (index + 1)) with
       | Some b, Some e => Ok (Op (slice (ob_ops o) b e) true false)
       | _, _ => UB
       end.
(** operator_batched.cpp:350-361 view_operator_at *)
Definition ob_view_operator_at (o : opbatch) (index : N) : res operator :=
  if ob_batch_size o <=? index then Throw
  else match nth_error (ob_row o) (N.to_nat index), nth_error (ob_row o) (N.to_nat (index + 1)) with
       | Some b, Some e => Ok (Op (slice (ob_ops o) b e) true true)
       | _, _ => UB
       end.
(** operator_batched.cpp:380-388 get_operators *)
Fixpoint collectR {A B} (f : A -> res B) (l : list A) : res (list B) :=
  match l with [] => Ok [] | a :: r => x <- f a ;; xs <- collectR f r ;; Ok (x :: xs) end.
Definition ob_get_operators (o : opbatch) : res (list operator) :=
  match ob_row o with [] => UB | _ :: rest => collectR (ob_get_operator_at o) (seqN (lenN rest)) end.

(** * Loops over Pauli terms.  Address (0, i) is this->_ops[i], (1, i) target._ops[i], (2, i) the _ops[i] being
    written.  A loop is the list of its iterations; in a TeamPolicy loop those of all teams and of all nested
    TeamThreadRange loops (nothing synchronises them). *)
Definition paddr : Type := (N * N)%type.
Definition paddr_eqb (a b : paddr) : bool := (fst a =? fst b) && (snd a =? snd b).
Notation pprog := (prog pauli paddr).
Definition this_at (i : N) : paddr := (0, i).
Definition arg_at (i : N) : paddr := (1, i).
Definition out_at (i : N) : paddr := (2, i).
Definition pvalid (la lb lr : N) (a : paddr) : bool :=
  snd a <? (if fst a =? 0 then la else if fst a =? 1 then lb else if fst a =? 2 then lr else 0).
(** an access outside of a std::vector or of a view of coefficients *)
Definition out_of_range : pprog := Rd (3, 0) (fun _ => Ret).
Definition pmemory (a b : list pauli) (out : N -> pauli) : paddr -> pauli :=
  fun x => if fst x =? 0 then nth (N.to_nat (snd x)) a no_pauli
           else if fst x =? 1 then nth (N.to_nat (snd x)) b no_pauli else out (snd x).
Definition from_list (l : list pauli) (i : N) : pauli := nth (N.to_nat i) l no_pauli.
Definition run_loop (la lb lr : N) (its : list pprog) (m : paddr -> pauli) (sched : list N) : outcome pauli paddr :=
  parallel_for paddr_eqb (pvalid la lb lr) (lenN its) (fun g => nth (N.to_nat g) its Ret) m sched.
(** The result of a call under a schedule: None when the schedule does not complete the loop. *)
Definition launch (la lb lr : N) (its : list pprog) (m : paddr -> pauli) (row_ptr : list N) (sched : list N) : option (res opbatch) :=
  match run_loop la lb lr its m sched with
  | Finished m' => Some (Ok (OB (map (fun i => m' (out_at i)) (seqN lr)) row_ptr))
  | Unfinished => None
  | OutOfBounds | DataRace => Some UB
  end.
(** a loop over _ops[0 .. extent) that updates entry i *)
Definition update_loop (f : N -> pauli -> pprog) (len : N) : list pprog :=
  map (fun i => Rd (out_at i) (f i)) (seqN len).

(** operator_batched.cpp:339-347 get_dagger *)
Definition ob_dagger (o : opbatch) (sched : list N) : option (res opbatch) :=
  let n := lenN (ob_ops o) in
  launch 0 0 n (update_loop (fun i p => Wr (out_at i) (pauli_dagger p) Ret) n) (pmemory [] [] (from_list (ob_ops o))) (ob_row o) sched.
(** operator_batched.hpp:104-111 unary minus *)
Definition ob_neg (o : opbatch) (sched : list N) : option (res opbatch) :=
  let n := lenN (ob_ops o) in
  launch 0 0 n (update_loop (fun i p => Wr (out_at i) (pauli_scale p (- C1)%C) Ret) n) (pmemory [] [] (from_list (ob_ops o))) (ob_row o) sched.
(** operator_batched.cpp:425-457 operator*(vector<StdComplex>), operator*=: coef_view is indexed by the number of the
    term *)
Definition ob_scale (o : opbatch) (coef : list C) (sched : list N) : option (res opbatch) :=
  if lenN coef =? ob_batch_size o then
    let n := lenN (ob_ops o) in
    launch 0 0 n
      (update_loop (fun i p => match nth_error coef (N.to_nat i) with
                               | Some c => Wr (out_at i) (pauli_scale p c) Ret
                               | None => out_of_range
                               end) n)
      (pmemory [] [] (from_list (ob_ops o))) (ob_row o) sched
  else Some Throw.
(** operator_batched.cpp:459-501 operator+(OperatorBatched); [junk] is the content of the fresh uninitialised view *)
Definition copy_to (src dst : N -> paddr) (n : N) : list pprog :=
  map (fun i => Rd (src i) (fun v => Wr (dst i) v Ret)) (seqN n).
Definition ob_add (a b : opbatch) (junk : N -> pauli) (sched : list N) : option (res opbatch) :=
  if lenN (ob_row a) =? lenN (ob_row b) then
    match rows a, rows b with
    | Ok ra, Ok rb =>
      let row_ptr_h := scan 0 (map (fun '((begin1, end1), (begin2, end2)) => (end1 - begin1) + (end2 - begin2)) (combine ra rb)) in
      launch (lenN (ob_ops a)) (lenN (ob_ops b)) (last row_ptr_h 0)
        (flat_map (fun '((begin1, end1), (begin2, end2), begin_res) =>
           copy_to (fun i => this_at (begin1 + i)) (fun i => out_at (begin_res + i)) (end1 - begin1) ++
           copy_to (fun i => arg_at (begin2 + i)) (fun i => out_at (begin_res + (end1 - begin1) + i)) (end2 - begin2))
           (combine (combine ra rb) row_ptr_h))
        (pmemory (ob_ops a) (ob_ops b) junk) row_ptr_h sched
    | _, _ => Some UB
    end
  else Some Throw.
(** operator_batched.hpp:113 operator-(OperatorBatched): *this + (-target) *)
Definition ob_sub (a b : opbatch) (junk : N -> pauli) (sched1 sched2 : list N) : option (res opbatch) :=
  match ob_neg b sched1 with
  | Some (Ok nb) => ob_add a nb junk sched2
  | r => r
  end.
(** operator_batched.cpp:503-541 operator*(OperatorBatched) *)
Definition ob_mul (a b : opbatch) (junk : N -> pauli) (sched : list N) : option (res opbatch) :=
  if lenN (ob_row a) =? lenN (ob_row b) then
    match rows a, rows b with
    | Ok ra, Ok rb =>
      let row_ptr_h := scan 0 (map (fun '((begin1, end1), (begin2, end2)) => (end1 - begin1) * (end2 - begin2)) (combine ra rb)) in
      launch (lenN (ob_ops a)) (lenN (ob_ops b)) (last row_ptr_h 0)
        (flat_map (fun '((begin1, end1), (begin2, end2), begin_res) =>
           map (fun i =>
             let i1 := i / (end2 - begin2) in
             let i2 := i mod (end2 - begin2) in
             Rd (this_at (begin1 + i1)) (fun p => Rd (arg_at (begin2 + i2)) (fun q => Wr (out_at (begin_res + i)) (pauli_mul p q) Ret)))
             (seqN ((end1 - begin1) * (end2 - begin2))))
           (combine (combine ra rb) row_ptr_h))
        (pmemory (ob_ops a) (ob_ops b) junk) row_ptr_h sched
    | _, _ => Some UB
    end
  else Some Throw.
(** operator_batched.cpp:543-578 operator+(vector<PauliOperator>): the size of the vector is compared with the extent of
    _row_ptr, one more than the batch size *)
Definition ob_add_paulis (o : opbatch) (paulis : list pauli) (junk : N -> pauli) (sched : list N) : option (res opbatch) :=
  if lenN (ob_row o) =? lenN paulis then
    match rows o with
    | Ok r =>
      let row_ptr_h := scan 0 (map (fun '(begin, end_) => (end_ - begin) + 1) r) in
      launch (lenN (ob_ops o)) 0 (last row_ptr_h 0)
        (flat_map (fun '((begin, end_), begin_res, p) =>
           map (fun i => if i <? end_ - begin then Rd (this_at (begin + i)) (fun v => Wr (out_at (begin_res + i)) v Ret)
                         else Wr (out_at (begin_res + i)) p Ret)
             (seqN (end_ - begin + 1)))
           (combine (combine r row_ptr_h) paulis))
        (pmemory (ob_ops o) [] junk) row_ptr_h sched
    | _ => Some UB
    end
  else Some Throw.
(** operator_batched.hpp:116-120 operator-(vector<PauliOperator>) *)
Definition ob_sub_paulis (o : opbatch) (paulis : list pauli) (junk : N -> pauli) (sched : list N) : option (res opbatch) :=
  ob_add_paulis o (map (fun p => pauli_scale p (- C1)%C) paulis) junk sched.
(** operator_batched.cpp:580-600 operator*(vector<PauliOperator>): end - begin + 1 iterations per element *)
Definition ob_mul_paulis (o : opbatch) (paulis : list pauli) (sched : list N) : option (res opbatch) :=
  if lenN (ob_row o) =? lenN paulis then
    match rows o with
    | Ok r =>
      launch (lenN (ob_ops o)) 0 (lenN (ob_ops o))
        (flat_map (fun '((begin, end_), p) =>
           map (fun i => Rd (this_at (begin + i)) (fun v => Wr (out_at (begin + i)) (pauli_mul v p) Ret)) (seqN (end_ - begin + 1)))
           (combine r paulis))
        (pmemory (ob_ops o) [] (from_list (ob_ops o))) (ob_row o) sched
    | _ => Some UB
    end
  else Some Throw.
(** operator_batched.cpp:602-617 operator*=(vector<PauliOperator>) *)
Definition ob_mul_paulis_in_place (o : opbatch) (paulis : list pauli) (sched : list N) : option (res opbatch) :=
  if lenN (ob_row o) =? lenN paulis then
    match rows o with
    | Ok r =>
      launch 0 0 (lenN (ob_ops o))
        (flat_map (fun '((begin, end_), p) =>
           map (fun i => Rd (out_at (begin + i)) (fun v => Wr (out_at (begin + i)) (pauli_mul v p) Ret)) (seqN (end_ - begin + 1)))
           (combine r paulis))
        (pmemory [] [] (from_list (ob_ops o))) (ob_row o) sched
    | _ => Some UB
    end
  else Some Throw.

(** * Expectation values and transition amplitudes.  One team per element; [trees b] is the grouping of the
    parallel_reduce of team b over (term, state_idx).  The body has the text of Operator's (operator.cpp:312-346);
    an expectation value has the state on both sides. *)
Definition ob_body (o : opbatch) (D begin : N) (it : N * N) : rprog C addr2 C :=
  let term_id := fst it + begin in
  if term_id <? lenN (ob_ops o) then op_trans_body (Op (ob_ops o) true false) (term_id, snd it) else RRd (false, D) (fun _ => RVal C0).
Definition ob_iters (D : N) (r : N * N) : list (N * N) := list_prod (seqN (snd r - fst r)) (seqN (N.shiftr D 1)).
Definition ob_amplitude (o : opbatch) (D : N) (bra ket : state) (r : N * N) (t : rtree (N * N)) : option C :=
  creduce (fun it => rrun (fun a => snd a <? D) (bra_ket bra ket) (ob_body o D (fst r) it)) t.
Definition ob_amplitudes (o : opbatch) (D : N) (bra ket : N -> state) (trees : N -> rtree (N * N)) : res (list (option C)) :=
  match rows o with
  | Ok r => Ok (map (fun '(b, r) => ob_amplitude o D (bra b) (ket b) r (trees b)) (combine (seqN (lenN r)) r))
  | Throw => Throw
  | UB => UB
  end.
(** operator_batched.cpp:74-124 get_expectation_value(StateVector) of a state of n qubits *)
Definition ob_expectation (o : opbatch) (n : N) (psi : state) (trees : N -> rtree (N * N)) : res (list (option C)) :=
  ob_amplitudes o (2 ^ n) (fun _ => psi) (fun _ => psi) trees.
(** operator_batched.cpp:126-187 get_expectation_value(StateVectorBatched) of B states *)
Definition ob_expectation_batch (o : opbatch) (n B : N) (flat : state) (trees : N -> rtree (N * N)) : res (list (option C)) :=
  if ob_batch_size o =? B then ob_amplitudes o (2 ^ n) (row (2 ^ n) flat) (row (2 ^ n) flat) trees else Throw.
(** operator_batched.cpp:189-258 get_transition_amplitude(StateVector, StateVector) *)
Definition ob_transition (o : opbatch) (nb nk : N) (bra ket : state) (trees : N -> rtree (N * N)) : res (list (option C)) :=
  if nb =? nk then ob_amplitudes o (2 ^ nb) (fun _ => bra) (fun _ => ket) trees else Throw.
(** operator_batched.cpp:260-336 get_transition_amplitude(StateVectorBatched, StateVectorBatched) *)
Definition ob_transition_batch (o : opbatch) (nb nk Bb Bk : N) (bra ket : state) (trees : N -> rtree (N * N)) : res (list (option C)) :=
  if nb =? nk then
    if Bb =? Bk then
      if ob_batch_size o =? Bb then ob_amplitudes o (2 ^ nb) (row (2 ^ nb) bra) (row (2 ^ nb) ket) trees else Throw
    else Throw
  else Throw.

(** * get_applied_states.  Address (false, (b, i)) is states._raw(b, i), (true, (b, i)) results._raw(b, i). *)
Definition saddr : Type := (bool * (N * N))%type.
Definition saddr_eqb (a b : saddr) : bool :=
  Bool.eqb (fst a) (fst b) && (fst (snd a) =? fst (snd b)) && (snd (snd a) =? snd (snd b)).
Definition st_at (b i : N) : saddr := (false, (b, i)).
Definition res_at (b i : N) : saddr := (true, (b, i)).
Definition svalid (B D : N) (a : saddr) : bool := (fst (snd a) <? B) && (snd (snd a) <? D).
Section Applied.
  Variables control_mask control_value_mask : N.
  (** apply_pauli.hpp:133-144: terms without a bit flip update results with a plain += *)
  Definition applied_diag (b idx : N) (p : pauli) (k : aprog saddr) : aprog saddr :=
    let state_idx := N.lor (insert_zero_at_mask_positions idx control_mask) control_value_mask in
    ARd (st_at b state_idx) (fun v =>
    ARd (res_at b state_idx) (fun r =>
    AWr (res_at b state_idx)
        (if parity (N.land state_idx (p_pf p)) then r - p_coef p * v else r + p_coef p * v)%C k)).
  (** apply_pauli.hpp:145-162: the others use atomic_add *)
  Definition applied_pair (b i : N) (p : pauli) (k : aprog saddr) : aprog saddr :=
    let pivot := bit_width (p_bf p) - 1 in
    let global_phase := PHASE_M90ROT (popcount (N.land (p_bf p) (p_pf p)) mod 4) in
    let basis_0 := N.lor (insert_zero_at_mask_positions i (N.lor control_mask (shl64 1 pivot))) control_value_mask in
    let basis_1 := N.lxor basis_0 (p_bf p) in
    ARd (st_at b basis_0) (fun v0 => ARd (st_at b basis_1) (fun v1 =>
      let tmp1 := (v0 * global_phase)%C in
      let tmp2 := (v1 * global_phase)%C in
      let tmp2 := if parity (N.land basis_0 (p_pf p)) then (- tmp2)%C else tmp2 in
      let tmp1 := if parity (N.land basis_1 (p_pf p)) then (- tmp1)%C else tmp1 in
      AAdd (res_at b basis_0) (tmp2 * p_coef p)%C (AAdd (res_at b basis_1) (tmp1 * p_coef p)%C k))).
  Definition applied_term (b i : N) (p : pauli) (k : aprog saddr) : aprog saddr :=
    if p_bf p =? 0 then applied_diag b (2 * i) p (applied_diag b (2 * i + 1) p k) else applied_pair b i p k.
  (** apply_pauli.hpp:126-164: iteration i of the team of element b; the loop over its terms *)
  Definition applied_body (terms : list pauli) (b i : N) : aprog saddr :=
    fold_right (applied_term b i) ARet terms.
  (** apply_pauli.hpp:120-166: the elements in rounds of batch_size; [groups] are the rounds *)
  Definition round_iters (D : N) (o : opbatch) (group : list (N * (N * N))) : list (aprog saddr) :=
    flat_map (fun '(b, (begin, end_)) =>
      map (applied_body (slice (ob_ops o) begin end_) b) (seqN (N.shiftr D (popcount control_mask + 1)))) group.
  Fixpoint in_groups {T} (size : nat) (fuel : nat) (l : list T) : list (list T) :=
    match fuel, l with
    | _, [] => []
    | O, _ => []
    | S fuel', _ => firstn size l :: in_groups size fuel' (skipn size l)
    end.
  Fixpoint run_rounds (B D : N) (groups : list (list (aprog saddr))) (scheds : list (list N)) (m : saddr -> C) : option (res (saddr -> C)) :=
    match groups with
    | [] => Some (Ok m)
    | its :: r =>
      match aparallel_for saddr_eqb (svalid B D) (lenN its) (fun g => nth (N.to_nat g) its ARet) m (hd [] scheds) with
      | AFinished m' => run_rounds B D r (tl scheds) m'
      | AUnfinished => None
      | AOutOfBounds | ADataRace => Some UB
      end
    end.
End Applied.
(** operator_batched.cpp:57-68 get_applied_states of a state of n qubits: uninitialized_state(batch size), every row set
    to the state, results set to zero.  With batch_size = 0 and a non-empty batch the loop never ends: no schedule
    completes. *)
Definition ob_applied_states (o : opbatch) (n : N) (psi : state) (batch_size : N) (scheds : list (list N)) : option (res (N -> state)) :=
  match rows o with
  | Ok r =>
    if (batch_size =? 0) && (0 <? lenN r) then None
    else
      let D := 2 ^ n in
      let numbered := combine (seqN (lenN r)) r in
      match run_rounds (lenN r) D
              (map (round_iters 0 0 D o) (in_groups (N.to_nat batch_size) (length r) numbered)) scheds
              (fun a => if fst a then C0 else psi (snd (snd a))) with
      | Some (Ok m) => Some (Ok (fun b i => m (res_at b i)))
      | Some Throw => Some Throw
      | Some UB => Some UB
      | None => None
      end
  | Throw => Some Throw
  | UB => Some UB
  end.
