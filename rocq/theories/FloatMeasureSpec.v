(** What a measurement in rounded arithmetic is compared with. *)
From Verif Require Export FloatCircuit SimulationSpec CircuitSpec.
Open Scope R_scope.

(** The amplitudes are numbers of the type. *)
Definition held_number (A : arith) (z : C) : Prop := a_rnd A (fst z) = fst z /\ a_rnd A (snd z) = snd z.
Definition held (A : arith) (D : N) (psi : state) : Prop := forall x, (x < D)%N -> held_number A (psi x).
(** Rounding keeps the sign, as it does in every IEEE 754 type. *)
Definition sign_kept (A : arith) : Prop := forall x, 0 <= x -> 0 <= a_rnd A x.
(** The number [r] drawn stands for outcome [b] of a measurement that is 0 with probability [p], up to an error [e] of [p]. *)
Definition outcome_about (e p r : R) (b : bool) : Prop := if b then p - e <= r else r < p + e.
(** How far the computed zero probability may be off when the state is at distance [d] from the exact one *)
Definition measure_error (u eta : R) (n : N) (h : nat) (d : R) : R := 3 * d + sum_error u eta n h 9 4.
(** An outcome of probability [p] is likely enough for the remaining state to be normalised. *)
Definition likely (u eta : R) (n : N) (h : nat) (d p : R) : Prop := 0 < p /\ 2 * d <= sqrt p /\ sum_error u eta n h 9 (p / 4) <= p / 16.
(** The distance after the measurement showed an outcome of probability [p] *)
Definition after_measure (u eta : R) (n : N) (h : nat) (d p : R) : R := 2 * d / sqrt p + normalize_error u eta n h (p / 4).

(** Gates of a circuit: unitary ones, rotations by a parameter, measurements, probabilistic ones *)
Inductive dgate : Type := DAct (k : call) | DTurn (k : pcall) (v : R) | DMeas (q bit : N) (reset : bool) | DChoice (l : list (R * dgate)).
Fixpoint dgate_of (g : dgate) : sgate :=
  match g with
  | DAct k => act_of k
  | DTurn k v => act_of (pcall_at k v)
  | DMeas q bit reset => Meas q bit reset
  | DChoice l => Choice (map (fun pg => (fst pg, dgate_of (snd pg))) l)
  end.
(** A rotation by a parameter: the factor of the parameter and of the Pauli operator are numbers of the type. *)
Definition pcall_factor (k : pcall) : R := match k with PCallRot _ _ pcoef _ _ | PCallPauliRotation _ pcoef _ _ => pcoef end.
Definition turn_ok (A : arith) (n : N) (k : pcall) (g : pgate) : Prop :=
  pcall_typed k /\ (exists vf, make_param vf k = Ok g) /\ a_rnd A (pcall_factor k) = pcall_factor k /\
  match k with PCallPauliRotation p _ _ _ => a_rnd A (fst (p_coef p)) = fst (p_coef p) /\ snd (p_coef p) = 0 | _ => True end /\
  Forall (fun q => q < n)%N (call_operands (pcall_at k 0)).
(** Error of a rotation by the value [v]: the value and the angle are rounded, too. *)
Definition turn_weight (k : pcall) (v : R) : R :=
  300 + match k with PCallPauliRotation p _ _ _ => Rabs (fst (p_coef p)) | _ => 1 end * (6 * Rabs (pcall_factor k * v) + 4 * Rabs (pcall_factor k) + 3).
(** What the gate objects stand for, given the values of the parameters *)
Inductive cmade (u : R) (A : arith) (n : N) : cgate -> dgate -> Prop :=
| cmade_act t g k : call_ok u A n k g -> cmade u A n (CElem (t, g)) (DAct k)
| cmade_measure q bit reset g : make_measurement q bit reset = Ok g -> (q < n)%N -> cmade u A n g (DMeas q bit reset)
| cmade_choice t dist gs ds : distribution_ok dist -> length dist = length gs -> Forall2 (cmade u A n) gs ds ->
    cmade u A n (CProb t dist gs) (DChoice (combine dist ds)).
Inductive pmade (u : R) (A : arith) (n : N) (v : R) : cgate + pgate -> dgate -> Prop :=
| pmade_fixed g d : cmade u A n g d -> pmade u A n v (inl g) d
| pmade_turn k g : turn_ok A n k g -> pmade u A n v (inr g) (DTurn k v)
| pmade_choice t dist gs ds : distribution_ok dist -> length dist = length gs -> Forall2 (pmade u A n v) gs ds ->
    pmade u A n v (inr (PProb t dist gs)) (DChoice (combine dist ds)).
Inductive dmade (u : R) (A : arith) (n : N) (ps : params) : citem -> dgate -> Prop :=
| dmade_gate g d : cmade u A n g d -> dmade u A n ps (IGate g) d
| dmade_param g key v d : ps key = Some v -> pmade u A n v (inr g) d -> dmade u A n ps (IParam g key) d.
Definition dcircuit_is (u : R) (A : arith) (n : N) (ps : params) (c : circuit) (l : list (dgate * option cond)) : Prop :=
  Forall2 (dmade u A n ps) (c_gates c) (map fst l) /\ c_conds c = map snd l.
(** The number [r] drawn decides the measurement although the zero probability [p] may be off by [e]. *)
Definition decides (e p r : R) : Prop := p <= 1 - e /\ (r < p - e \/ p + e <= r).
(** Additions of doubles between -2 and 2 have an error up to [e64]. *)
Definition adds_doubles (e64 : R) (rnd64 : R -> R) : Prop := forall x, Rabs x <= 2 -> Rabs (rnd64 x - x) <= e64.
(** The number [x] drawn picks [g] although the ends of the intervals, sums of probabilities, may be off by [e]. *)
Definition clearly_picks (e : R) (l : list (R * dgate)) (x : R) (g : dgate) : Prop :=
  exists l1 p l2, l = l1 ++ (p, g) :: l2 /\ (l1 = [] \/ Rsuml fst l1 + e <= x) /\ (x < Rsuml fst l1 + p - e \/ l2 = []).
(** One gate with the numbers [us] drawn takes [s] to [s'] in the exact run; every draw decides its measurement or choice, and
    a rounded run at distance [d] before is at distance [d'] at most afterwards. *)
Inductive gdecided (u eta e64 : R) (n : N) (h : nat) : dgate -> list R -> sstate -> R -> sstate -> R -> Prop :=
| gdecided_act k s d : d <= 1 ->
    gdecided u eta e64 n h (DAct k) [] s d
      (SState (apply_mat (call_targets k) (call_controls k) (call_matrix k) (s_psi s)) (s_reg s)) (d + weight k * unit_error u eta n 2)
| gdecided_turn k v s d : d <= 1 -> let k' := pcall_at k v in
    gdecided u eta e64 n h (DTurn k v) [] s d
      (SState (apply_mat (call_targets k') (call_controls k') (call_matrix k') (s_psi s)) (s_reg s)) (d + turn_weight k v * unit_error u eta n 2)
| gdecided_measure q bit reset x s d : d <= 1 -> (bit < N.of_nat (length (s_reg s)))%N ->
    decides (measure_error u eta n h d) (bit_prob n q false (s_psi s)) x ->
    let b := shown n q (s_psi s) x in likely u eta n h d (bit_prob n q b (s_psi s)) ->
    gdecided u eta e64 n h (DMeas q bit reset) [x] s d
      (SState (measured n q reset b (s_psi s)) (with_bit (s_reg s) bit b)) (after_measure u eta n h d (bit_prob n q b (s_psi s)))
| gdecided_choice l x g us s d s' d' : 0 <= x -> INR (length l) * e64 <= / 2 -> clearly_picks (INR (length l) * e64) l x g ->
    gdecided u eta e64 n h g us s d s' d' -> gdecided u eta e64 n h (DChoice l) (x :: us) s d s' d'.
(** The same for the gates of a circuit ([exec_list], CircuitSpec.v). *)
Inductive decided (u eta e64 : R) (n : N) (h : nat) : list (dgate * option cond) -> list N -> list R -> sstate -> R -> sstate -> R -> Prop :=
| decided_nil ms s d : decided u eta e64 n h [] ms [] s d s d
| decided_skip g c r ms us s d s' d' : holds c (s_reg s) = Ok false ->
    decided u eta e64 n h r ms us s d s' d' -> decided u eta e64 n h ((g, c) :: r) ms us s d s' d'
| decided_gate g c r ms us vs s d s1 d1 s' d' : holds c (s_reg s) = Ok true -> touches ms (dgate_of g) = false ->
    gdecided u eta e64 n h g us s d s1 d1 ->
    decided u eta e64 n h r (unreset_after (dgate_of g) ms) vs s1 d1 s' d' ->
    decided u eta e64 n h ((g, c) :: r) ms (us ++ vs) s d s' d'.
(** The random numbers of the world begin with [us]. *)
Definition draws (w : world) (us : list R) : Prop := us = map (w_rand w) (seq 0 (length us)).
(** |0...0> *)
Definition all_zero (x : N) : C := if (x =? 0)%N then C1 else C0.
(** A circuit on two qubits that applies H to qubit 0 and measures qubit 1 *)
Definition untouched_measured (c : circuit) : Prop := exists vf t g m,
  make vf (Call1 GH 0 [] []) = Ok g /\ make_measurement 1 0 false = Ok m /\ c = build [OGate (CElem (t, g)); OGate m].
