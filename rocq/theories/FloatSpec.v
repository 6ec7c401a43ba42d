(** What is assumed of the number type, and what the rounded updates are compared with. *)
From Flocq Require Core.
From Verif Require Export Float RotationSpec.
Open Scope N_scope.

(** A number type with relative rounding error u, and absolute error eta where numbers underflow: results are
    rounded with that error, halving a number of the type is exact unless it underflows, the mathematical
    library is accurate to about one unit in the last place, and so are the constants. *)
Record accurate (u eta : R) (A : arith) : Prop := {
  acc_u : (0 <= u <= / 256)%R;
  acc_eta : (0 <= eta <= u)%R;
  acc_rnd : forall x, (Rabs (a_rnd A x - x) <= u * Rabs x + eta)%R;
  acc_zero : a_rnd A 0%R = 0%R;
  acc_idem : forall x, a_rnd A (a_rnd A x) = a_rnd A x;
  acc_half : forall x, a_rnd A x = x -> (Rabs (a_rnd A (x / 2) - x / 2) <= eta)%R;
  acc_cos : forall x, (Rabs (a_cos A x - cos x) <= 2 * u)%R;
  acc_sin : forall x, (Rabs (a_sin A x - sin x) <= 2 * u)%R;
  acc_cosh : (Rabs (a_cosh A 0 - 1) <= 2 * u)%R;
  acc_sinh : (Rabs (a_sinh A 0) <= 2 * u)%R;
  acc_tree : forall es vs, reduction_of (seq 0 (length es)) (a_tree A es vs);
  acc_exp0 : (Rabs (a_exp0 A - 1) <= 2 * u)%R;
  acc_isq2 : (Rabs (a_isq2 A - / sqrt 2) <= 2 * u)%R;
  acc_pi2 : a_rnd A (a_pi2 A) = a_pi2 A /\ (Rabs (a_pi2 A - PI / 2) <= 4 * u)%R
}.

(** The angles are numbers of the type. *)
Definition angles_in (A : arith) (k : std1) : Prop :=
  let num x := a_rnd A x = x in
  match k with
  | GRX a | GRY a | GRZ a | GU1 a => num a
  | GU2 a b => num a /\ num b
  | GU3 a b c => num a /\ num b /\ num c
  | _ => True
  end.
(** What is asked of a call: angles and coefficients are numbers of the type where the code takes them as such,
    the entries of matrices are at most 1 in modulus, as they are in a unitary matrix, Pauli rotations have a
    real coefficient, and matrices on many qubits are not too big for the precision. *)
Definition rounded_call (u : R) (A : arith) (k : call) : Prop :=
  match k with
  | Call1 s _ _ _ => angles_in A s
  | CallGlobalPhase phase _ _ => a_rnd A phase = phase
  | CallPauli p _ _ => (Cnorm2 (p_coef p) <= 1)%R
  | CallPauliRotation p angle _ _ => a_rnd A angle = angle /\ a_rnd A (fst (p_coef p)) = fst (p_coef p) /\ snd (p_coef p) = 0%R
  | CallDense ts M _ _ _ =>
    ((length ts <= 2)%nat \/ (4 * 2 ^ length ts * u <= 1)%R) /\ forall i j, i < m_rows M -> j < m_cols M -> (Cnorm2 (m_at M i j) <= 1)%R
  | CallSparse ts Sp _ _ =>
    (4 * 2 ^ length ts * u <= 1)%R /\ forall i j, i < csr_rows Sp -> j < csr_rows Sp -> (Cnorm2 (csr_sum Sp i j) <= 1)%R
  | _ => True
  end.
(** Units of rounding the call may cost *)
Definition weight (k : call) : R :=
  match k with
  | CallPauliRotation p angle _ _ => (300 + 2 * Rabs (angle * fst (p_coef p)))%R
  | CallDense ts _ _ _ _ => if (length ts <=? 2)%nat then 300%R else (100 * 4 ^ length ts)%R
  | CallSparse ts _ _ _ => (100 * 4 ^ length ts)%R
  | _ => 300%R
  end.

(** The rounded update of the gate does not throw, and under every schedule turns [psi] into [psi'] without
    out-of-bounds access or data race. *)
Definition f_updating (A : arith) (n B L : N) (g : egate) (psi psi' : state) : Prop :=
  exists p, f_update_plan A n (B * 2 ^ n) L g = Ok p /\ updates_to (B * 2 ^ n) p psi psi'.
Definition f_result (A : arith) (n B L : N) (g : egate) (psi psi' : state) : Prop :=
  exists p junk scheds, f_update_plan A n (B * 2 ^ n) L g = Ok p /\ run_plan (B * 2 ^ n) p junk scheds psi = Finished psi'.
(** Some run of the rounded updates of the gates, one after the other *)
Inductive f_run (A : arith) (n B L : N) : list egate -> state -> state -> Prop :=
| f_done psi : f_run A n B L [] psi psi
| f_step g gs psi phi rho : f_result A n B L g psi phi -> f_run A n B L gs phi rho -> f_run A n B L (g :: gs) psi rho.
(** The exact product of the matrices of the calls *)
Definition exact_after (ks : list call) (psi : state) : state :=
  fold_left (fun phi k => apply_mat (call_targets k) (call_controls k) (call_matrix k) phi) ks psi.

(** What one gate may add to the distance from the exact state: [weight] units of rounding relative to the norm of
    the state, and the underflow of the 2^n amplitudes *)
Definition unit_error (u eta : R) (n : N) (size : R) : R := (u * size + eta * sqrt (2 ^ N.to_nat n))%R.
Definition total_weight (ks : list call) : R := Rsuml weight ks.
(** [g] is made by the unitary call [k] on qubits below [n]. *)
Definition call_ok (u : R) (A : arith) (n : N) (k : call) (g : egate) : Prop :=
  call_typed k /\ (exists vf, make vf k = Ok g) /\ call_unitary k /\ rounded_call u A k /\ Forall (fun q => q < n) (call_operands k).
(** Calls that only move amplitudes *)
Definition moves_only (k : call) : Prop :=
  match k with
  | CallI | Call1 GX _ _ _ | CallCX _ _ | CallCCX _ _ _ | CallSwap _ _ _ _ | CallPermutation _ => True
  | _ => False
  end.

(** The part of [accurate] that is about the mathematical library and the constants *)
Record library (u : R) (A : arith) : Prop := {
  lib_cos : forall x, (Rabs (a_cos A x - cos x) <= 2 * u)%R;
  lib_sin : forall x, (Rabs (a_sin A x - sin x) <= 2 * u)%R;
  lib_cosh : (Rabs (a_cosh A 0 - 1) <= 2 * u)%R;
  lib_sinh : (Rabs (a_sinh A 0) <= 2 * u)%R;
  lib_tree : forall es vs, reduction_of (seq 0 (length es)) (a_tree A es vs);
  lib_exp0 : (Rabs (a_exp0 A - 1) <= 2 * u)%R;
  lib_isq2 : (Rabs (a_isq2 A - / sqrt 2) <= 2 * u)%R;
  lib_pi2 : a_rnd A (a_pi2 A) = a_pi2 A /\ (Rabs (a_pi2 A - PI / 2) <= 4 * u)%R
}.
(** Binary floating point with [prec] bits and least exponent [emin], rounding to nearest, ties to even:
    (53, -1074) for double, (24, -149) for float, (11, -24) and (8, -133) for the 16-bit types *)
Definition nearest (prec emin : Z) : R -> R :=
  Core.Generic_fmt.round Core.Zaux.radix2 (Core.FLT.FLT_exp emin prec) Core.Round_NE.ZnearestE.
Definition unit_of (prec : Z) : R := (/ powerRZ 2 prec)%R.
Definition tiny_of (emin : Z) : R := (powerRZ 2 (emin - 1))%R.
Definition binary (prec emin : Z) (A : arith) : Prop := a_rnd A = nearest prec emin /\ library (unit_of prec) A.
(** The type with that rounding, a library that is rounded correctly, and contraction of the first product *)
Definition correctly_rounded (prec emin : Z) : arith :=
  let r := nearest prec emin in
  Arith r (fun _ _ _ _ _ => FuseFirst) (fun x => r (cos x)) (fun x => r (sin x)) (fun x => r (cosh x)) (fun x => r (sinh x)) (fun es _ => RLeaf (seq 0 (length es))) (r 1%R) (r (/ sqrt 2)%R) (r (PI / 2)%R).
