(** What the StateVector methods promise. *)
From Verif Require Export GateSpec State.

(** Sum of f over a list, in the reals. *)
Definition Rsuml {T} (f : T -> R) (l : list T) : R := fold_right (fun x s => (f x + s)%R) 0%R l.
(** Total squared modulus of the basis states of n qubits that satisfy P. *)
Definition prob (n : N) (P : N -> bool) (psi : state) : R := Rsuml (fun x => Cnorm2 (psi x)) (filter P (seqN (2 ^ n))).
Definition sqnorm (n : N) (psi : state) : R := Rsuml (fun x => Cnorm2 (psi x)) (seqN (2 ^ n)).
(** Basis state x shows the values vs: 0 or 1 for a measured qubit, 2 for an unmeasured one. *)
Definition shows (vs : list N) (x : N) : bool :=
  forallb (fun iv => (snd iv =? 2) || Bool.eqb (N.testbit x (fst iv)) (snd iv =? 1)) (combine (seqN (N.of_nat (length vs))) vs).

(** Every execution returns [v] and changes nothing; there is one. *)
Definition returns {T} (p : host world T) (w : world) (v : T) : Prop := runs p w (fun o => o = HDone v w).
(** Every execution throws, nothing having been changed. *)
Definition throws {T} (p : host world T) (w : world) : Prop := runs p w (fun o => o = HThrown w).
Definition undefined {T} (p : host world T) (w : world) : Prop := runs p w (fun o => o = HUndefined).
(** Every execution completes with the D amplitudes [psi'] and nothing else changed. *)
Definition only_amplitudes (D : N) (psi' : state) (w w' : world) : Prop :=
  (forall a, a < D -> w_amp w' a = psi' a) /\ w_home w' = w_home w /\ w_reg w' = w_reg w /\ w_rand w' = w_rand w.
Definition sets (D : N) (p : host world unit) (w : world) (psi' : state) : Prop :=
  runs p w (done (fun _ w' => only_amplitudes D psi' w w')).

(** Cumulative probability of the basis states below k. *)
Definition cumulative (psi : state) (k : N) : R := Rsuml (fun x => Cnorm2 (psi x)) (seqN k).
(** The interval of cumulative probability of basis state x contains r. *)
Definition selects (psi : state) (r : R) (x : N) : Prop := (cumulative psi x <= r < cumulative psi (x + 1))%R.
Definition unit_draw (r : R) : Prop := (0 <= r < 1)%R.

(** ** Histories of a state vector *)
Inductive sop : Type :=
| SZero
| SZeroNorm
| SBasis (x : N)
| SAmp (i : N) (c : C)
| SNormalize
| SMultiply (c : C)
| SAdd (c : C) (same : bool) (m : N) (other : state)  (* the state itself, or a state of m qubits *)
| SLoad (l : list C).
Definition run_sop (n : N) (o : sop) : host world unit :=
  match o with
  | SZero => set_zero_state n
  | SZeroNorm => set_zero_norm_state n
  | SBasis x => set_computational_basis n x
  | SAmp i c => set_amplitude_at n i c
  | SNormalize => normalize n
  | SMultiply c => multiply_coef n c
  | SAdd c same m other => add_state_vector_with_coef n c same (2 ^ m) other
  | SLoad l => load n l
  end.
Definition run_sops (n : N) (l : list sop) : host world unit := fold_right (fun o p => run_sop n o;~ p) (hret tt) l.
(** the same calls on vectors: the new vector, or None where the call throws *)
Definition vector_op (n : N) (o : sop) (psi : state) : option state :=
  match o with
  | SZero => Some (fun x => if x =? 0 then C1 else C0)
  | SZeroNorm => Some (fun _ => C0)
  | SBasis b => if b <? 2 ^ n then Some (fun x => if x =? b then C1 else C0) else None
  | SAmp i c => Some (fun x => if x =? i then c else psi x)
  | SNormalize => Some (fun x => Cscale (/ sqrt (sqnorm n psi)) (psi x))
  | SMultiply c => Some (fun x => (c * psi x)%C)
  | SAdd c same _ other => Some (fun x => (psi x + c * (if same then psi x else other x))%C)
  | SLoad l => if N.of_nat (length l) =? 2 ^ n then Some (fun x => nth (N.to_nat x) l C0) else None
  end.
(** a sequence of calls up to the first that throws: the vector, and whether one threw *)
Fixpoint vector_ops (n : N) (l : list sop) (psi : state) : state * bool :=
  match l with
  | [] => (psi, false)
  | o :: r => match vector_op n o psi with Some psi' => vector_ops n r psi' | None => (psi, true) end
  end.
(** what the library leaves to the caller: indices in range, a state of non-zero norm, an operand that is large enough *)
Definition sop_ok (n : N) (o : sop) (psi : state) : Prop :=
  match o with
  | SAmp i _ => i < 2 ^ n
  | SNormalize => sqnorm n psi <> 0%R
  | SAdd _ same m _ => same = true \/ n <= m
  | _ => True
  end.
Fixpoint sops_ok (n : N) (l : list sop) (psi : state) : Prop :=
  match l with [] => True | o :: r => sop_ok n o psi /\ forall psi', vector_op n o psi = Some psi' -> sops_ok n r psi' end.

(** ** Batched states *)

(** one number per batch element, computed from that element alone *)
Definition elementwise {T} (B n : N) (f : state -> T) (psi : state) : list T := map (fun b => f (batch n b psi)) (seqN B).
Definition rows_become (B n : N) (f : N -> state) (w w' : world) : Prop :=
  (forall b i, b < B -> i < 2 ^ n -> batch n b (w_amp w') i = f b i) /\
  w_home w' = w_home w /\ w_reg w' = w_reg w /\ w_rand w' = w_rand w.
Inductive bop : Type :=
| BoZero | BoZeroNorm | BoBasis (x : N) | BoNormalize | BoMultiply (c : C)
| BoAdd (c : C) (same : bool) (b2 m : N) (other : state)
| BoSet (m : N) (phi : state) | BoSetAt (b m : N) (phi : state) | BoLoad (ls : list (list C)).
Definition run_bop (B n : N) (o : bop) : host world unit :=
  match o with
  | BoZero => b_set_zero_state B n
  | BoZeroNorm => b_set_zero_norm_state B n
  | BoBasis x => b_set_computational_basis B n x
  | BoNormalize => b_normalize B n
  | BoMultiply c => b_multiply_coef B n c
  | BoAdd c same b2 m other => b_add_state_vector_with_coef B n c same b2 m other
  | BoSet m phi => b_set_state_vector B n m phi
  | BoSetAt b m phi => b_set_state_vector_at B n b m phi
  | BoLoad ls => b_load B n ls
  end.
Definition run_bops (B n : N) (l : list bop) : host world unit := fold_right (fun o p => run_bop B n o;~ p) (hret tt) l.
(** the same call on a family of vectors: a single call on each of them, except for the two that name an element *)
Definition on_all (B n : N) (o : sop) (psi : N -> state) : option (N -> state) :=
  match vector_op n o (psi 0) with
  | None => None
  | Some _ => Some (fun b => match vector_op n o (psi b) with Some phi => phi | None => psi b end)
  end.
Definition family_op (B n : N) (o : bop) (psi : N -> state) : option (N -> state) :=
  match o with
  | BoZero => on_all B n SZero psi
  | BoZeroNorm => on_all B n SZeroNorm psi
  | BoBasis x => on_all B n (SBasis x) psi
  | BoNormalize => on_all B n SNormalize psi
  | BoMultiply c => on_all B n (SMultiply c) psi
  | BoAdd c same b2 m other =>
    if (n =? m) && (B =? b2) then Some (fun b x => psi b x + c * (if same then psi b x else batch n b other x))%C else None
  | BoSet m phi => if n =? m then Some (fun _ => phi) else None
  | BoSetAt k m phi => if (k <? B) && (n =? m) then Some (fun b => if b =? k then phi else psi b) else None
  | BoLoad ls =>
    if (N.of_nat (length ls) =? B) && forallb (fun l => N.of_nat (length l) =? 2 ^ n) ls
    then Some (fun b x => nth (N.to_nat x) (nth (N.to_nat b) ls []) C0) else None
  end.
Fixpoint family_ops (B n : N) (l : list bop) (psi : N -> state) : (N -> state) * bool :=
  match l with
  | [] => (psi, false)
  | o :: r => match family_op B n o psi with Some psi' => family_ops B n r psi' | None => (psi, true) end
  end.
Fixpoint bops_ok (B n : N) (l : list bop) (psi : N -> state) : Prop :=
  match l with
  | [] => True
  | o :: r => (o = BoNormalize -> forall b, b < B -> sqnorm n (psi b) <> 0%R) /\
              forall psi', family_op B n o psi = Some psi' -> bops_ok B n r psi'
  end.

(** ** Classical registers *)
Inductive rop : Type :=
| RWrite (i : N) (b : bool)
| RRead (i : N)
| RReset.
(** the register after a call, and whether the call threw *)
Definition run_rop (o : rop) (r : list bool) : list bool * bool :=
  match o with
  | RWrite i b => match reg_write r i b with Ok r' => (r', false) | _ => (r, true) end
  | RRead i => match reg_read r i with Ok _ => (r, false) | _ => (r, true) end
  | RReset => (reg_reset r, false)
  end.
Definition run_rops (l : list rop) (r : list bool) : list bool := fold_left (fun r o => fst (run_rop o r)) l r.
(** the last value written to bit i since construction or reset; [l] in the order of the calls *)
Definition last_written (i : N) (l : list rop) : bool :=
  fold_left (fun v o => match o with RWrite j b => if j =? i then b else v | RRead _ => v | RReset => false end) l false.
Inductive brop : Type :=
| BWrite (b i : N) (v : bool)
| BAssign (b : N) (x : list bool)
| BReset.
Definition run_brop (o : brop) (r : breg) : breg * bool :=
  match o with
  | BWrite b i v => match breg_write r b i v with Ok r' => (r', false) | _ => (r, true) end
  | BAssign b x => match breg_assign r b x with Ok r' => (r', false) | _ => (r, true) end
  | BReset => (breg_reset r, false)
  end.
Definition run_brops (l : list brop) (r : breg) : breg := fold_left (fun r o => fst (run_brop o r)) l r.
(** the last value given to bit i of element b *)
Definition last_given (size b i : N) (l : list brop) : bool :=
  fold_left (fun v o => match o with
                        | BWrite b' i' x => if (b' =? b) && (i' =? i) then x else v
                        | BAssign b' x => if (b' =? b) && (N.of_nat (length x) =? size) then nth (N.to_nat i) x v else v
                        | BReset => false
                        end) l false.
