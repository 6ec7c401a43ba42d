(** What the density matrix promises. *)
From Verif Require Export GateSpec StateSpec OperatorSpec Density.

(** the matrix an object holds *)
Definition rho (w : dmw) : matrix := fun i j => d_raw w (i, j).
(** Every execution returns [v] and changes nothing; there is one. *)
Definition yields {T} (p : host dmw T) (w : dmw) (v : T) : Prop := runs p w (fun o => o = HDone v w).
(** Every execution throws, nothing having been changed. *)
Definition refuses {T} (p : host dmw T) (w : dmw) : Prop := runs p w (fun o => o = HThrown w).
(** Every execution completes, with the n-qubit matrix [M] and the hermitian flag [h]. *)
Definition becomes (n : N) (p : host dmw unit) (w : dmw) (M : matrix) (h : bool) : Prop :=
  runs p w (done (fun _ w' => mat_eq (2 ^ n) (rho w') M /\ d_herm w' = h)).

(** the 2^n x 2^n matrix of a gate: column j is the image of basis state j *)
Definition full_matrix (k : call) : matrix := fun i j => apply_mat (call_targets k) (call_controls k) (call_matrix k) (basis j) i.
(** U M U^dagger *)
Definition sandwich (d : N) (U M : matrix) : matrix := mat_mul d (mat_mul d U M) (mat_adj U).
(** the gates that can update a density matrix *)
Definition dm_supported (k : call) : bool :=
  match k with
  | CallI | CallGlobalPhase _ _ _ | Call1 _ _ _ _ | CallCX _ _ | CallCZ _ _ | CallCCX _ _ _ | CallSwap _ _ _ _ | CallEcr _ _ _ _ => true
  | CallPermutation _ | CallPauli _ _ _ | CallPauliRotation _ _ _ _ | CallDense _ _ _ _ _ | CallSparse _ _ _ _ => false
  end.
Definition trace (d : N) (M : matrix) : C := Csum d (fun i => M i i).
Definition hermitian (d : N) (M : matrix) : Prop := mat_eq d (mat_adj M) M.
(** <phi| M |phi> is real and not negative for every phi *)
Definition mat_vec (d : N) (M : matrix) (phi : state) : state := fun i => Csum d (fun j => (M i j * phi j)%C).
Definition psd (n : N) (M : matrix) : Prop :=
  forall phi, (0 <= fst (inner n phi (mat_vec (2 ^ n) M phi)))%R /\ snd (inner n phi (mat_vec (2 ^ n) M phi)) = 0%R.
(** |psi><psi| *)
Definition pure (psi : state) : matrix := fun i j => (psi i * Cconj (psi j))%C.
(** the squared modulus of the entries, and its sum *)
Definition diag_prob (n : N) (P : N -> bool) (M : matrix) : R := Rsuml (fun x => fst (M x x)) (filter P (seqN (2 ^ n))).

(** ** Histories of a density matrix *)
Inductive dop : Type :=
| DZero
| DZeroNorm
| DBasis (x : N)
| DSet (r c : N) (v : C)
| DSetPair (r c : N) (v : C)
| DLoadMatrix (M : dmat) (h : bool)
| DLoadDensity (m : N) (other : dmw)
| DLoadState (m : N) (psi : state)
| DNormalize
| DAdd (coef : C) (same : bool) (m : N) (other : dmw)  (* the matrix itself, or one of m qubits *)
| DMultiply (coef : C)
| DForce
| DGate (vf : bool) (k : call).
Definition run_dop (n : N) (o : dop) : host dmw unit :=
  match o with
  | DZero => dm_set_zero_state n
  | DZeroNorm => dm_set_zero_norm_state n
  | DBasis x => dm_set_computational_basis n x
  | DSet r c v => set_coherence_at n r c v
  | DSetPair r c v => set_coherence_pair_at n r c v
  | DLoadMatrix M h => dm_load_matrix n M h
  | DLoadDensity m other => dm_load_dm n m other
  | DLoadState m psi => dm_load_state n m psi
  | DNormalize => dm_normalize n
  | DAdd coef same m other => add_density_matrix_with_coef n coef same m other
  | DMultiply coef => dm_multiply_coef n coef
  | DForce => force_hermitian
  | DGate vf k => g <~ hlift (make vf k);; dm_update n g
  end.
Definition run_dops (n : N) (l : list dop) : host dmw unit := fold_right (fun o p => run_dop n o;~ p) (hret tt) l.
Definition Cinv (z : C) : C := Cscale (/ Cnorm2 z)%R (Cconj z).
Definition is_real (z : C) : bool := if Req_EM_T (snd z) 0 then true else false.
(** the same calls on matrices: the new matrix, or None where the call throws *)
Definition matrix_op (n : N) (o : dop) (A : matrix) : option matrix :=
  match o with
  | DZero => Some (fun i j => if (i =? 0) && (j =? 0) then C1 else C0)
  | DZeroNorm => Some (fun _ _ => C0)
  | DBasis x => if x <? 2 ^ n then Some (fun i j => if (i =? x) && (j =? x) then C1 else C0) else None
  | DSet r c v => if (r <? 2 ^ n) && (c <? 2 ^ n) then Some (fun i j => if (i =? r) && (j =? c) then v else A i j) else None
  | DSetPair r c v =>
    if (r <? 2 ^ n) && (c <? 2 ^ n)
    then Some (fun i j => if (i =? r) && (j =? c) then v else if (i =? c) && (j =? r) then Cconj v else A i j) else None
  | DLoadMatrix M _ => if (m_rows M =? 2 ^ n) && (m_cols M =? 2 ^ n) then Some (m_at M) else None
  | DLoadDensity m other => if m =? n then Some (rho other) else None
  | DLoadState m psi => if m =? n then Some (pure psi) else None
  | DNormalize => Some (fun i j => (Cinv (trace (2 ^ n) A) * A i j)%C)
  | DAdd coef same m other => if m =? n then Some (fun i j => (A i j + coef * (if same then A i j else rho other i j))%C) else None
  | DMultiply coef => Some (fun i j => (coef * A i j)%C)
  | DForce => Some A
  | DGate _ k =>
    if dm_supported k && forallb (fun q => q <? n) (call_operands k) then Some (sandwich (2 ^ n) (full_matrix k) A) else None
  end.
(** and on the flag that says the matrix is known to be Hermitian *)
Definition flag_op (o : dop) (h : bool) : bool :=
  match o with
  | DZero | DZeroNorm | DBasis _ | DLoadState _ _ | DForce => true
  | DSet r c v => h && (r =? c) && is_real v
  | DLoadMatrix _ h' => h'
  | DLoadDensity _ other => d_herm other
  | DAdd coef same _ other => h && (if same then h else d_herm other) && is_real coef
  | DMultiply coef => h && is_real coef
  | DSetPair _ _ _ | DNormalize | DGate _ _ => h
  end.
(** a sequence of calls up to the first that throws: matrix and flag, and whether one threw *)
Fixpoint matrix_ops (n : N) (l : list dop) (A : matrix) (h : bool) : matrix * bool * bool :=
  match l with
  | [] => (A, h, false)
  | o :: r => match matrix_op n o A with Some A' => matrix_ops n r A' (flag_op o h) | None => (A, h, true) end
  end.
(** what is left to the caller: no division by a zero trace, gates that could be built *)
Definition dop_ok (n : N) (o : dop) (A : matrix) : Prop :=
  match o with
  | DNormalize => trace (2 ^ n) A <> C0
  | DGate vf k => call_typed k /\ exists g, make vf k = Ok g
  | _ => True
  end.
Fixpoint dops_ok (n : N) (l : list dop) (A : matrix) : Prop :=
  match l with [] => True | o :: r => dop_ok n o A /\ forall A', matrix_op n o A = Some A' -> dops_ok n r A' end.
(** what the caller claims about hermiticity is true *)
Definition honest (n : N) (o : dop) (A : matrix) : Prop :=
  match o with
  | DLoadMatrix M h => h = true -> hermitian (2 ^ n) (m_at M)
  | DLoadDensity _ other | DAdd _ _ _ other => d_herm other = true -> hermitian (2 ^ n) (rho other)
  | DForce => hermitian (2 ^ n) A
  | DSetPair r c v => r = c -> snd v = 0%R
  | _ => True
  end.
Fixpoint all_honest (n : N) (l : list dop) (A : matrix) : Prop :=
  match l with [] => True | o :: r => honest n o A /\ forall A', matrix_op n o A = Some A' -> all_honest n r A' end.

(** ** Sampling from the diagonal *)
Definition diag_cumulative (M : matrix) (k : N) : R := Rsuml (fun x => fst (M x x)) (seqN k).
Definition diag_selects (M : matrix) (r : R) (x : N) : Prop := (diag_cumulative M x <= r < diag_cumulative M (x + 1))%R.

(** ** Partial traces *)
(** the qubits that remain, ascending *)
Definition rest_of (n : N) (qs : list N) : list N := filter (fun q => negb (existsb (N.eqb q) qs)) (seqN n).
(** the basis state whose remaining qubits show i and whose traced qubits show z *)
Definition joint (n : N) (qs : list N) (i z : N) : N := scatter qs z (scatter (rest_of n qs) i 0).
(** the sum over the settings of the traced qubits *)
Definition ptrace (n : N) (qs : list N) (M : matrix) : matrix := fun i j =>
  Csum (2 ^ N.of_nat (length qs)) (fun z => M (joint n qs i z) (joint n qs j z)).
(** Every execution returns a new object with the m-qubit matrix [M] and the flag [h] and leaves the old one alone. *)
Definition creates (m : N) (p : host dmw dmw) (w : dmw) (M : matrix) (h : bool) : Prop :=
  runs p w (done (fun w2 w' => w' = w /\ mat_eq (2 ^ m) (rho w2) M /\ d_herm w2 = h)).
