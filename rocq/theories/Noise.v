(** Circuit::simulate_noise.

    The repository draws with std::discrete_distribution from a seeded engine; here the drawn indices are an
    arbitrary stream, so every theorem holds for all of them.  Counters are unsigned 64-bit numbers that never
    exceed sampling_count; they are natural numbers here. *)
From Verif Require Export CircuitSpec.
Local Open Scope nat_scope.

(** circuit.cpp:517-551: the distribution and the alternatives of one gate *)
Definition noise_choices (i : citem) : res (list R * list citem) :=
  match i with
  | IGate (CProb true dist gs) => Ok (dist, map IGate gs)
  | IGate (CMeas _ _ _) => Throw
  | IGate g => Ok ([1%R], [IGate g])
  | IParam (PProb true dist gs) key =>
    Ok (dist, map (fun g => match g with inl g => IGate g | inr g => IParam g key end) gs)
  | IParam g key => Ok ([1%R], [IParam g key])
  end.

(** ++gate_used_count[i][j] *)
Fixpoint bump (row : list nat) (j : nat) : list nat :=
  match row, j with
  | [], _ => []
  | x :: r, O => S x :: r
  | x :: r, S j => x :: bump r j
  end.
(** circuit.cpp:559-571: the draws of one state; the number of counters that became positive is added to
    [new_size] *)
Fixpoint draw_row (m : nat) (row : list nat) (new_size : nat) (draws : nat -> nat) : res (list nat * nat * (nat -> nat)) :=
  match m with
  | O => Ok (row, new_size, draws)
  | S m =>
    let j := draws 0 in
    if length row <=? j then Throw
    else draw_row m (bump row j) (if nth j row 0 =? 0 then S new_size else new_size) (fun k => draws (S k))
  end.
(** circuit.cpp:555-572 *)
Fixpoint draw_rows (size : nat) (scounts : list nat) (new_size : nat) (draws : nat -> nat) :
    res (list (list nat) * nat * (nat -> nat)) :=
  match scounts with
  | [] => Ok ([], new_size, draws)
  | m :: r =>
    x <- draw_row m (repeat 0 size) new_size draws;;
    let '(row, new_size, draws) := x in
    y <- draw_rows size r new_size draws;;
    let '(rows, new_size, draws) := y in
    Ok (row :: rows, new_size, draws)
  end.

Section Noise.
  Variables (n L : N) (ps : string -> option R).

  (** the result under construction: new_states, the counts written so far and insert_idx (their number) *)
  Definition building : Type := (state * list nat)%type.
  (** circuit.cpp:590-595 for alternative [i]: [rows] is gate_used_count, [j] the state.  Writing past the end
      of new_states is undefined. *)
  Fixpoint insert_rows (new_size i : nat) (tmp : state) (rows : list (list nat)) (j : nat) (acc : building) : res building :=
    match rows with
    | [] => Ok acc
    | row :: r =>
      let '(new, counts) := acc in
      if nth i row 0 =? 0 then insert_rows new_size i tmp r (S j) acc
      else if new_size <=? length counts then UB
      else insert_rows new_size i tmp r (S j)
             (put_row n (N.of_nat (length counts)) (fun x => tmp (at_row n (N.of_nat j) x)) new, counts ++ [nth i row 0])
    end.
  (** circuit.cpp:581-589: update_quantum_state of one alternative on tmp_states, a batch of B states.  No register is
      passed: the ones in the world are empty. *)
  Definition noise_update (B : N) (g : citem) : host bworld unit :=
    match g with
    | IGate g => b_cgate_update n B L g
    | IParam g key => v <~ hlift (opt_res (ps key));; b_pgate_update n B L g (repeat v (N.to_nat B))
    end.
  Definition with_states (B : N) (amp : state) (w : bworld) : bworld :=
    BWorld amp (BReg (repeat [] (N.to_nat B)) 0%N) (bw_rand w).
  (** circuit.cpp:578-596: i runs over probs.size() indices; gates[i] past the end is undefined *)
  Fixpoint noise_alternatives (states : state) (rows : list (list nat)) (new_size : nat) (gates : list citem)
      (is : list nat) (acc : building) : host bworld building :=
    match is with
    | [] => hret acc
    | i :: r =>
      match nth_error gates i with
      | None => hundefined
      | Some g =>
        let B := N.of_nat (length rows) in
        hmodify (with_states B states);~
        noise_update B g;~
        tmp <~ hget bw_amp;;
        acc <~ hlift (insert_rows new_size i tmp rows 0 acc);;
        noise_alternatives states rows new_size gates r acc
      end
    end.
  (** circuit.cpp:514-599: one gate.  The fresh array is arbitrary; counts not written stay 0. *)
  Definition noise_gate (i : citem) (states : state) (scounts : list nat) (draws : nat -> nat) :
      host bworld (state * list nat * (nat -> nat)) :=
    x <~ hlift (noise_choices i);;
    let '(probs, gates) := x in
    y <~ hlift (draw_rows (length probs) scounts 0 draws);;
    let '(rows, new_size, draws) := y in
    junk <~ (fun w o => exists junk : state, o = HDone junk w);;
    z <~ noise_alternatives states rows new_size gates (seq 0 (length probs)) (junk, []);;
    let '(new, counts) := z in
    hret (new, counts ++ repeat 0 (new_size - length counts), draws).
  Fixpoint noise_gates (is : list citem) (states : state) (scounts : list nat) (draws : nat -> nat) :
      host bworld (state * list nat) :=
    match is with
    | [] => hret (states, scounts)
    | i :: r =>
      x <~ noise_gate i states scounts draws;;
      let '(states, scounts, draws) := x in
      noise_gates r states scounts draws
    end.
  (** circuit.cpp:501-601; the classical conditions of the circuit are not looked at *)
  Definition simulate_noise (c : circuit) (initial : state) (sampling_count : nat) (draws : nat -> nat) :
      host bworld (list (state * nat)) :=
    hcheck (required_n_qubits c <=? n)%N;~
    x <~ noise_gates (c_gates c) initial [sampling_count] draws;;
    let '(states, scounts) := x in
    hret (map (fun jm => (fun a => states (at_row n (N.of_nat (fst jm)) a), snd jm)) (combine (seq 0 (length scounts)) scounts)).
End Noise.
