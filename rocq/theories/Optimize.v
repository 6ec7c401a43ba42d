(** Circuit::optimize (src/circuit/circuit.cpp:328-486).  Gates merge as in Merge.v. *)
From Verif Require Export Circuit.

(** ** merge_gate on any gates (merge_gate.cpp:40-76)
    Probabilistic gates whose type is visible are rejected; those whose type is Unknown pass next to an identity,
    and otherwise throw when their control mask is read (gate_probabilistic.hpp:45-50).  Measurements pass next to
    an identity or an uncontrolled global phase, and otherwise throw when their matrix is read
    (gate_measurement.cpp:8-11). *)
Definition merge_any (vf : bool) (g1 g2 : cgate) : res (cgate * R) :=
  match g1, g2 with
  | CElem a, CElem b => r <- merge_gate vf a b ;; Ok (CElem (fst r), snd r)
  | CProb true _ _, _ | _, CProb true _ _ => Throw
  | CElem (true, EI), _ => Ok (g2, 0%R)
  | _, CElem (true, EI) => Ok (g1, 0%R)
  | CElem (true, EGlobalPhase b p), CMeas _ _ _ => if g_c b =? 0 then Ok (g2, p) else Throw
  | CMeas _ _ _, CElem (true, EGlobalPhase b p) => if g_c b =? 0 then Ok (g1, p) else Throw
  | _, _ => Throw
  end.

(** gate->control_qubit_mask() and gate->control_value_mask() *)
Definition c_control_mask (g : cgate) : res N :=
  match g with CElem (_, g) => Ok (g_c (g_base g)) | CMeas _ _ _ => Ok 0 | CProb _ _ _ => Throw end.
Definition c_control_value_mask (g : cgate) : res N :=
  match g with CElem (_, g) => Ok (g_cv (g_base g)) | CMeas _ _ _ => Ok 0 | CProb _ _ _ => Throw end.
(** 418-421 is_pauli *)
Definition is_pauli_type (g : cgate) : bool :=
  match g with
  | CElem (true, EStd GX _) | CElem (true, EStd GY _) | CElem (true, EStd GZ _) | CElem (true, EPauli _ _) => true
  | _ => false
  end.
(** 422-424 is_pure_pauli *)
Definition is_pure_pauli (g : cgate) : res bool := c <- c_control_mask g ;; Ok ((c =? 0) && is_pauli_type g).

(** std::ranges::sort followed by erase(unique) *)
Fixpoint insert_unique (k : nat) (l : list nat) : list nat :=
  match l with
  | [] => [k]
  | h :: t => if Nat.ltb k h then k :: l else if Nat.eqb k h then l else h :: insert_unique k t
  end.
Definition sort_unique (l : list nat) : list nat := fold_right insert_unique [] l.

(** 331-340 the local variables.  [None] in [o_wait] is NO_GATES.  The last component is not in the code and the
    others do not depend on it: it tells whether a merged gate has fewer operands than the two gates it stands for,
    or a gate without operands was put on the waiting list (where no qubit leads to it). *)
Record ost : Type := OSt { o_out : list (citem * option cond); o_phase : R; o_pool : list cgate; o_wait : N -> option nat; o_lost : bool }.

Section Optimize.
  Variables (vf : bool) (max_block : N) (nq : N).

  (** 341-346 get_operand_list (gate.hpp:300-302, gate_probabilistic.hpp:37-39) *)
  Definition olist (i : citem) : list N := mask_to_vector (item_mask i).
  (** waiting_gate_idx_at_qubit[operand] for all operands: outside the vector it is undefined *)
  Definition on_operands {T} (i : citem) (k : list N -> res T) : res T :=
    if forallb (fun q => q <? nq) (olist i) then k (olist i) else UB.
  Definition set_wait (qs : list N) (v : option nat) (w : N -> option nat) : N -> option nat :=
    fold_left (fun w q => upd N.eqb w q v) qs w.
  (** 347-355 push *)
  Definition o_push (i : citem) (f : option cond) (st : ost) : res ost :=
    on_operands i (fun qs => Ok (OSt (o_out st ++ [(i, f)]) (o_phase st) (o_pool st) (set_wait qs None (o_wait st)) (o_lost st))).
  (** 356-363 wait *)
  Definition o_waitfor (g : cgate) (st : ost) : res ost :=
    on_operands (IGate g) (fun qs => Ok (OSt (o_out st) (o_phase st) (o_pool st ++ [g])
      (set_wait qs (Some (length (o_pool st))) (o_wait st)) (o_lost st || (operand_mask g =? 0)))).
  (** 364-374 get_waiting_gate_indices *)
  Definition waiting (qs : list N) (w : N -> option nat) : list nat :=
    sort_unique (flat_map (fun q => match w q with Some k => [k] | None => [] end) qs).
  Definition waiting_indices (i : citem) (st : ost) : res (list nat) := on_operands i (fun qs => Ok (waiting qs (o_wait st))).
  (** gate_pool[idx] *)
  Definition pool_at (st : ost) (k : nat) : res cgate := match nth_error (o_pool st) k with Some g => Ok g | None => UB end.
  (** 375-379 push_waiting_gates, 456-459 *)
  Fixpoint push_all (ks : list nat) (st : ost) : res ost :=
    match ks with
    | [] => Ok st
    | k :: r => g <- pool_at st k ;; st' <- o_push (IGate g) None st ;; push_all r st'
    end.
  (** 380-387 get_newly_applied_qubits *)
  Definition newly_applied (i : citem) (st : ost) : res (list N) :=
    on_operands i (fun qs => Ok (filter (fun q => match o_wait st q with None => true | Some _ => false end) qs)).
  (** 411-417 *)
  Fixpoint pool_size (st : ost) (ks : list nat) (acc : N) : res N :=
    match ks with
    | [] => Ok acc
    | k :: r => g <- pool_at st k ;; pool_size st r (acc + N.of_nat (length (olist (IGate g))))
    end.
  (** std::ranges::all_of(waiting_gate_indices, is_pure_pauli) *)
  Fixpoint all_pure (st : ost) (ks : list nat) : res bool :=
    match ks with
    | [] => Ok true
    | k :: r => g <- pool_at st k ;; b <- is_pure_pauli g ;; if b then all_pure st r else Ok false
    end.
  (** 446-451 *)
  Fixpoint merge_all (ks : list nat) (g : cgate) (st : ost) : res (cgate * ost) :=
    match ks with
    | [] => Ok (g, st)
    | k :: r => h <- pool_at st k ;; m <- merge_any vf h g ;;
                merge_all r (fst m) (OSt (o_out st) (o_phase st + snd m)%R (o_pool st) (o_wait st)
                  (o_lost st || negb (operand_mask (fst m) =? N.lor (operand_mask h) (operand_mask g))))
    end.
  (** 400-464: a gate that may be merged *)
  Definition o_gate (g : cgate) (st : ost) : res ost :=
    let i := IGate g in
    ks <- waiting_indices i st ;;
    match ks with
    | [] => o_waitfor g st
    | _ =>
      new <- newly_applied i st ;;
      size <- pool_size st ks (N.of_nat (length new)) ;;
      pure <- is_pure_pauli g ;;
      all_pauli <- (if pure then all_pure st ks else Ok false) ;;
      sp <- match ks with
            | [k] =>
              previous <- pool_at st k ;;
              c1 <- c_control_mask g ;;
              v1 <- c_control_value_mask g ;;
              c2 <- c_control_mask previous ;;
              v2 <- c_control_value_mask previous ;;
              Ok (sub64 size (popcount (N.land (N.land c1 c2) (not64 (N.lxor v1 v2)))),
                  all_pauli || ((c1 =? c2) && (v1 =? v2) && is_pauli_type g && is_pauli_type previous))
            | _ => Ok (size, all_pauli)
            end ;;
      if snd sp || (fst sp <=? max_block) then
        m <- merge_all ks g st ;; o_waitfor (fst m) (snd m)
      else
        st' <- push_all ks st ;; o_waitfor g st'
    end.
  (** 389-400 *)
  Definition o_step (i : citem) (f : option cond) (st : ost) : res ost :=
    let fixed := ks <- waiting_indices i st ;; st' <- push_all ks st ;; o_push i f st' in
    match f, i with
    | None, IGate g =>
      match g with
      | CProb true _ _ | CMeas _ _ _ => fixed
      | CElem (true, EI) => Ok st
      | CElem (true, EGlobalPhase b p) =>
        if g_c b =? 0 then Ok (OSt (o_out st) (o_phase st + p)%R (o_pool st) (o_wait st) (o_lost st)) else o_gate g st
      | _ => o_gate g st
      end
    | _, _ => fixed
    end.
  Fixpoint o_loop (l : list citem) (fs : list (option cond)) (st : ost) : res ost :=
    match l, fs with
    | [], _ => Ok st
    | i :: r, f :: fs' => st' <- o_step i f st ;; o_loop r fs' st'
    | _ :: _, [] => UB
    end.
  (** 466-480 *)
  Fixpoint take_all (ks : list nat) (st : ost) : res (list citem) :=
    match ks with
    | [] => Ok []
    | k :: r => g <- pool_at st k ;; l <- take_all r st ;; Ok (IGate g :: l)
    end.
  Definition o_finish (st : ost) : res circuit :=
    rest <- take_all (waiting (seqN nq) (o_wait st)) st ;;
    let out := o_out st ++ map (fun i => (i, None)) rest in
    out' <- (if Rlt_dec (/ 10 ^ 12) (Rabs (o_phase st))
             then g <- make vf (CallGlobalPhase (o_phase st) [] []) ;; Ok (out ++ [(IGate (CElem (true, g)), None)])
             else Ok out) ;;
    Ok (Circuit (map fst out') (map snd out')).
  Definition o_start : ost := OSt [] 0 [] (fun _ => None) false.
End Optimize.

(** 481-482: the lists are swapped at the end, so that a throw leaves the circuit as it was *)
Definition optimize (vf : bool) (max_block : N) (c : circuit) : res circuit :=
  let nq := required_n_qubits c in
  st <- o_loop vf max_block nq (c_gates c) (c_conds c) o_start ;;
  o_finish vf nq st.
