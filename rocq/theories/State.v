(** StateVector methods (src/state/state_vector.cpp) and their batched versions
    (src/state/state_vector_batched.cpp).

    Numbers are exact (no rounding); _dim = 1ULL << n_qubits is 2^n (n < 64 in the theorems).  A batched state
    is the array of its B rows one after the other: row b, column i is address b * 2^n + i
    (state_vector_batched.hpp:37-45; the padding between rows in memory is never addressed). *)
From Verif Require Export Host.

Definition one_kernel (D : N) (f : N -> prog C N) : host world unit := hplan D (InPlace [Kernel D f]).
Definition sum_R (D iters : N) (f : N -> rprog C N R) : host world R := hsum 0%R Rplus D iters f.
Definition read_norm (a : N) : rprog C N R := RRd a (fun v => RVal (Cnorm2 v)).
(** C++ bool -> complex conversion *)
Definition bit_amp (b : bool) : C := if b then C1 else C0.

Section Single.
  Variable n : N.
  Notation D := (2 ^ n).

  (** state_vector.cpp:48-53 *)
  Definition set_zero_state : host world unit := one_kernel D (fun i => Wr i (bit_amp (i =? 0)) Ret).
  (** state_vector.cpp:54-57: deep_copy(_raw, 0) *)
  Definition set_zero_norm_state : host world unit := one_kernel D (fun i => Wr i C0 Ret).
  (** state_vector.cpp:58-70 *)
  Definition set_computational_basis (b : N) : host world unit :=
    if D <=? b then hthrow else one_kernel D (fun i => Wr i (bit_amp (i =? b)) Ret).
  (** state_vector.cpp:17-22: no check of the index *)
  Definition set_amplitude_at (i : N) (c : C) : host world unit :=
    if i <? D then hmodify (fun w => set_amp (upd N.eqb (w_amp w) i c) w) else hundefined.
  (** state_vector.cpp:24-29 *)
  Definition get_amplitude_at (i : N) : host world C :=
    if i <? D then hget (fun w => w_amp w i) else hundefined.
  (** state_vector.cpp:100-108 *)
  Definition get_amplitudes : host world (list C) := hget (fun w => map (w_amp w) (seqN D)).
  (** state_vector.cpp:109-119 *)
  Definition get_squared_norm : host world R := sum_R D D read_norm.
  (** state_vector.cpp:120-127.  With norm 0 the division yields NaN, which the reals do not have. *)
  Definition normalize : host world unit :=
    s <~ get_squared_norm;;
    if Req_EM_T (sqrt s) 0 then hundefined
    else one_kernel D (fun it => Rd it (fun v => Wr it ((fst v / sqrt s)%R, (snd v / sqrt s)%R) Ret)).
  (** state_vector.cpp:128-146 *)
  Definition get_zero_probability (q : N) : host world R :=
    if n <=? q then hthrow
    else sum_R D (N.shiftr D 1) (fun i => read_norm (insert_zero_to_basis_index i q)).
  (** state_vector.cpp:147-189; UNMEASURED is 2 (state_vector.hpp:30) *)
  Fixpoint measured_targets (i : N) (vs : list N) : res (list (N * N)) :=
    match vs with
    | [] => Ok []
    | v :: r =>
      if (v =? 0) || (v =? 1) then l <- measured_targets (i + 1) r;; Ok ((i, v) :: l)
      else if v =? 2 then measured_targets (i + 1) r
      else Throw
    end.
  Definition insert_measured (basis : N) (t : N * N) : N :=
    N.lor (insert_zero_to_basis_index basis (fst t)) (shl64 (snd t) (fst t)).
  Definition get_marginal_probability (vs : list N) : host world R :=
    if negb (N.of_nat (length vs) =? n) then hthrow
    else ts <~ hlift (measured_targets 0 vs);;
         sum_R D (N.shiftr D (N.of_nat (length ts))) (fun i => read_norm (fold_left insert_measured ts i)).
  (** state_vector.cpp:190-205 *)
  Definition log2 (x : R) : R := (ln x / ln 2)%R.
  Definition get_computational_basis_entropy : host world R :=
    sum_R D D (fun i => RRd i (fun v => RVal (if Rlt_dec 0 (Cnorm2 v) then (- Cnorm2 v * log2 (Cnorm2 v))%R else 0%R))).
  (** state_vector.cpp:206-216: no check of the sizes.  [other] is the other object's array of D2 amplitudes;
      [same]: the argument refers to the same array as this state. *)
  Definition add_state_vector_with_coef (coef : C) (same : bool) (D2 : N) (other : state) : host world unit := fun w o =>
    exists scheds,
      match run_kernels addr2_eqb (fun a => if fst a then snd a <? D2 else snd a <? D)
              [Kernel D (fun i => Rd (false, i) (fun v => Rd (negb same, i) (fun u => Wr (false, i) (v + coef * u)%C Ret)))]
              scheds (fun a => if fst a then other (snd a) else w_amp w (snd a)) with
      | Finished m => o = HDone tt (set_amp (fun i => m (false, i)) w)
      | Unfinished => False
      | OutOfBounds | DataRace => o = HUndefined
      end.
  (** state_vector.cpp:217-222 *)
  Definition multiply_coef (coef : C) : host world unit := one_kernel D (fun i => mul_at i coef Ret).
  (** state_vector.cpp:279-293 (and 294-302 with the amplitudes of another state) *)
  Definition load (l : list C) : host world unit :=
    if negb (N.of_nat (length l) =? D) then hthrow
    else one_kernel D (fun i => Wr i (nth (N.to_nat i) l C0) Ret).
  (** state_vector.cpp:341-348, utility.hpp:106-120; n2 and other: the second argument *)
  Definition inner_product (n2 : N) (other : state) : host world C := 
    if negb (D =? 2 ^ n2) then hthrow
    else hsum C0 Cadd D D (fun i => RRd i (fun a => RVal (Cconj a * other i)%C)).

  (** state_vector.cpp:223-278 sampling.  parallel_scan computes the prefix sums (exact, so the grouping of the
      additions is irrelevant). *)
  Fixpoint stacked (psi : state) (k : nat) : R :=
    match k with O => 0%R | S j => (stacked psi j + Cnorm2 (psi (N.of_nat j)))%R end.
  Definition stacked_prob (psi : state) (i : N) : R := stacked psi (N.to_nat i).
  (** 247-254: the binary search; hi - lo shrinks in every step, so hi - lo steps suffice *)
  Fixpoint bsearch (fuel : nat) (st : N -> R) (r : R) (lo hi : N) : N :=
    match fuel with
    | O => lo
    | S f => if 1 <? hi - lo then
               let mid := (lo + hi) / 2 in
               if Rlt_dec r (st mid) then bsearch f st r lo mid else bsearch f st r mid hi
             else lo
    end.
  Definition choose (psi : state) (r : R) : N :=
    bsearch (N.to_nat (D + 1)) (stacked_prob psi) r 0 (D + 1).
  (** 260-274: results equal to _dim are drawn again; [draw i] is the number drawn for the i-th open sample.
      A sample is named by a key (its number; in the batched version batch and number), [pick] is the search. *)
  Section Rounds.
    Context {K : Type} (keqb : K -> K -> bool) (pick : K -> R -> N).
    Fixpoint sampling_store (draw : N -> R) (i : N) (todo : list K) (result : K -> N) : list K * (K -> N) :=
      match todo with
      | [] => ([], result)
      | s :: rest =>
        let x := pick s (draw i) in
        if x =? D then let '(next, r) := sampling_store draw (i + 1) rest result in (s :: next, r)
        else sampling_store draw (i + 1) rest (upd keqb result s x)
      end.
    (** the while loop, given the numbers of successive rounds; None: they run out before every sample is drawn *)
    Fixpoint sampling_loop (rounds : list (N -> R)) (todo : list K) (result : K -> N) : option (K -> N) :=
      match todo with
      | [] => Some result
      | _ =>
        match rounds with
        | [] => None
        | draw :: rest => let '(next, r) := sampling_store draw 0 todo result in sampling_loop rest next r
        end
      end.
  End Rounds.
  Definition sampling (psi : state) (count : N) (rounds : list (N -> R)) : option (list N) :=
    match sampling_loop N.eqb (fun _ => choose psi) rounds (seqN count) (fun _ => 0) with
    | Some r => Some (map r (seqN count))
    | None => None
    end.
End Single.

Section Batched.
  Variables B n : N.
  Notation D := (B * 2 ^ n).
  Definition at_row (b i : N) : N := b * 2 ^ n + i.
  (** one number per batch element; the teams run at the same time but only read *)
  Fixpoint per_batch {T} (f : N -> host world T) (bs : list N) : host world (list T) :=
    match bs with
    | [] => hret []
    | b :: r => v <~ f b;; l <~ per_batch f r;; hret (v :: l)
    end.
  Definition for_batches (f : N -> host world unit) : host world unit :=
    fold_right (fun b p => f b;~ p) (hret tt) (seqN B).

  (** state_vector_batched.cpp:31-44; [m] qubits and amplitudes of the argument *)
  Definition b_set_state_vector (m : N) (phi : state) : host world unit :=
    if negb (2 ^ n =? 2 ^ m) then hthrow
    else one_kernel D (fun a => Wr a (phi (N.land a (2 ^ n - 1))) Ret).
  (** state_vector_batched.cpp:46-64 *)
  Definition b_set_state_vector_at (b m : N) (phi : state) : host world unit :=
    if B <=? b then hthrow else if negb (2 ^ n =? 2 ^ m) then hthrow
    else hplan D (InPlace [Kernel (2 ^ n) (fun i => Wr (at_row b i) (phi i) Ret)]).
  (** state_vector_batched.cpp:77-91 *)
  Definition b_get_state_vector_at (b : N) : host world state :=
    if B <=? b then hthrow else hget (fun w i => w_amp w (at_row b i)).
  (** state_vector_batched.cpp:93-105 *)
  Definition b_set_computational_basis (x : N) : host world unit :=
    if 2 ^ n <=? x then hthrow else one_kernel D (fun a => Wr a (bit_amp (N.land a (2 ^ n - 1) =? x)) Ret).
  (** state_vector_batched.hpp: set_zero_state is set_computational_basis(0) *)
  Definition b_set_zero_state : host world unit := b_set_computational_basis 0.
  (** state_vector_batched.cpp:106-109 *)
  Definition b_set_zero_norm_state : host world unit := one_kernel D (fun a => Wr a C0 Ret).
  (** state_vector_batched.cpp:236-263 *)
  Definition b_get_squared_norm : host world (list R) :=
    per_batch (fun b => sum_R D (2 ^ n) (fun i => read_norm (at_row b i))) (seqN B).
  (** state_vector_batched.cpp:265-286.  The teams are modelled one after the other: a team touches only its own row. *)
  Definition b_normalize : host world unit :=
    for_batches (fun b =>
      s <~ sum_R D (2 ^ n) (fun i => read_norm (at_row b i));;
      if Req_EM_T (sqrt s) 0 then hundefined
      else hplan D (InPlace [Kernel (2 ^ n) (fun i =>
             Rd (at_row b i) (fun v => Wr (at_row b i) ((fst v / sqrt s)%R, (snd v / sqrt s)%R) Ret))])).
  (** state_vector_batched.cpp:288-322 *)
  Definition b_get_zero_probability (q : N) : host world (list R) :=
    if n <=? q then hthrow
    else per_batch (fun b => sum_R D (N.shiftr (2 ^ n) 1) (fun i => read_norm (at_row b (insert_zero_to_basis_index i q)))) (seqN B).
  (** state_vector_batched.cpp:324-382: the bits are combined with ^= *)
  Definition b_insert_measured (basis : N) (t : N * N) : N :=
    N.lxor (insert_zero_to_basis_index basis (fst t)) (shl64 (snd t) (fst t)).
  Definition b_get_marginal_probability (vs : list N) : host world (list R) :=
    if negb (N.of_nat (length vs) =? n) then hthrow
    else ts <~ hlift (measured_targets 0 vs);;
         per_batch (fun b => sum_R D (N.shiftr (2 ^ n) (N.of_nat (length ts)))
                               (fun i => read_norm (at_row b (fold_left b_insert_measured ts i)))) (seqN B).
  (** state_vector_batched.cpp:384-418: probabilities below eps = 1e-15 are raised to eps *)
  Definition eps_entropy : R := (/ 10 ^ 15)%R.
  Definition b_get_computational_basis_entropy : host world (list R) :=
    per_batch (fun b => sum_R D (2 ^ n) (fun i => RRd (at_row b i) (fun v =>
      let prob := Rmax (Cnorm2 v) eps_entropy in RVal (- prob * log2 prob)%R))) (seqN B).
  (** state_vector_batched.cpp:420-436 *)
  Definition b_add_state_vector_with_coef (coef : C) (same : bool) (B2 n2 : N) (other : state) : host world unit := fun w o =>
    if negb (n =? n2) || negb (B =? B2) then o = HThrown w else
    exists scheds,
      match run_kernels addr2_eqb (fun a => if fst a then snd a <? B2 * 2 ^ n2 else snd a <? D)
              [Kernel D (fun i => Rd (false, i) (fun v => Rd (negb same, i) (fun u => Wr (false, i) (v + coef * u)%C Ret)))]
              scheds (fun a => if fst a then other (snd a) else w_amp w (snd a)) with
      | Finished m => o = HDone tt (set_amp (fun i => m (false, i)) w)
      | Unfinished => False
      | OutOfBounds | DataRace => o = HUndefined
      end.
  (** state_vector_batched.cpp:438-448 *)
  Definition b_multiply_coef (coef : C) : host world unit := one_kernel D (fun a => mul_at a coef Ret).
  (** state_vector_batched.cpp:450-472 *)
  Definition b_load (ls : list (list C)) : host world unit :=
    if negb (N.of_nat (length ls) =? B) then hthrow
    else if negb (forallb (fun l => N.of_nat (length l) =? 2 ^ n) ls) then hthrow
    else one_kernel D (fun a =>
           Wr a (nth (N.to_nat (N.land a (2 ^ n - 1))) (nth (N.to_nat (N.shiftr a n)) ls []) C0) Ret).
  (** state_vector_batched.cpp:117-195: todo lists the batch and the number of every sample, batch by batch *)
  Definition pair_eqb (a b : N * N) : bool := (fst a =? fst b) && (snd a =? snd b).
  Definition b_sampling (psi : state) (count : N) (rounds : list (N -> R)) : option (list (list N)) :=
    match sampling_loop n pair_eqb (fun k => choose n (fun i => psi (at_row (fst k) i))) rounds
            (list_prod (seqN B) (seqN count)) (fun _ => 0) with
    | Some r => Some (map (fun b => map (fun s => r (b, s)) (seqN count)) (seqN B))
    | None => None
    end.
  (** state_vector_batched.cpp:516-535: the sum of the rows, one reduction per column *)
  Definition b_get_reduced_state : host world (list C) :=
    per_batch (fun i => hsum C0 Cadd D B (fun b => RRd (at_row b i) (fun v => RVal v))) (seqN (2 ^ n)).
End Batched.

(** ClassicalRegister (classical_register.hpp:12-41) *)
Definition reg_new (size : N) : list bool := repeat false (N.to_nat size).
Definition reg_read (r : list bool) (i : N) : res bool :=
  match nth_error r (N.to_nat i) with Some b => Ok b | None => Throw end.
Fixpoint reg_set {T} (l : list T) (k : nat) (v : T) : list T :=
  match l, k with
  | [], _ => []
  | _ :: r, O => v :: r
  | x :: r, S j => x :: reg_set r j v
  end.
Definition reg_write (r : list bool) (i : N) (b : bool) : res (list bool) :=
  if i <? N.of_nat (length r) then Ok (reg_set r (N.to_nat i) b) else Throw.
Definition reg_reset (r : list bool) : list bool := map (fun _ => false) r.
(** ClassicalRegisterBatched (classical_register_batched.hpp:16-54, 73-86): the registers and the size given at
    construction *)
Record breg : Type := BReg { br_regs : list (list bool); br_size : N }.
Definition breg_new (size batch : N) : breg := BReg (repeat (reg_new size) (N.to_nat batch)) size.
Definition breg_get (r : breg) (b : N) : res (list bool) :=
  match nth_error (br_regs r) (N.to_nat b) with Some x => Ok x | None => Throw end.
Definition breg_set (r : breg) (b : N) (x : list bool) : breg := BReg (reg_set (br_regs r) (N.to_nat b) x) (br_size r).
Definition breg_read (r : breg) (b i : N) : res bool := x <- breg_get r b;; reg_read x i.
Definition breg_write (r : breg) (b i : N) (v : bool) : res breg :=
  x <- breg_get r b;; y <- reg_write x i v;; Ok (breg_set r b y).
(** Python __setitem__ with a whole register *)
Definition breg_assign (r : breg) (b : N) (x : list bool) : res breg :=
  if negb (N.of_nat (length x) =? br_size r) then Throw
  else _ <- breg_get r b;; Ok (breg_set r b x).
Definition breg_reset (r : breg) : breg := BReg (map reg_reset (br_regs r)) (br_size r).
