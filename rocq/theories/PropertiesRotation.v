(** Property theorems: rotations by an observable (Circuit::add_observable_rotation_gate). *)
From Verif Require Import RotationProofs6.
Open Scope N_scope.

(** ** C60: add_observable_rotation_gate() approximates exp(- i angle/2 H) *)
Theorem C60_refused : forall vf o angle k c, o_herm o = false \/ (k <= 0)%Z -> add_observable_rotation_gate vf o angle k c = Throw.
Proof. exact rotation_refused. Qed.
Print Assumptions C60_refused.
Theorem C60_appends : forall vf o angle k, o_herm o = true -> (0 < k)%Z -> Forall (fun p => p_bf p < two64 /\ p_pf p < two64) (o_terms o) ->
  exists d, (forall c, add_observable_rotation_gate vf o angle k c = Ok (add_circuit c d)) /\
    length (c_gates d) = if Rlt_dec (Rabs angle) (/ 10 ^ 12) then 0%nat else (Z.to_nat k * length (o_terms o))%nat.
Proof. exact rotation_appends. Qed.
Print Assumptions C60_appends.
(** The evolution meant is there, and there is only one. *)
Theorem C60_evolution_exists : forall n o psi, op_fits n o -> exists E, evolution n o psi E.
Proof. exact evolution_exists. Qed.
Print Assumptions C60_evolution_exists.
Theorem C60_evolution_unique : forall n o psi E F, op_fits n o -> real_coefs o -> evolution n o psi E -> evolution n o psi F ->
  forall t x, x < 2 ^ n -> E t x = F t x.
Proof. exact evolution_unique. Qed.
Print Assumptions C60_evolution_unique.
(** For an angle that is not skipped: the error is at most angle^2 / (4 repeats) times the weight of the pairs of terms that do not commute. *)
Theorem C60_error : forall vf o angle k apart n L ps w E d, n < 64 -> lanes_ok L -> op_fits n o -> real_coefs o -> (/ 10 ^ 12 <= Rabs angle)%R ->
  evolution n o (w_amp w) E -> (forall p q, In p (o_terms o) -> In q (o_terms o) -> apart p q = false -> commute p q) ->
  add_observable_rotation_gate vf o angle k c_new = Ok d ->
  runs (circuit_update_plain n L ps d) w (done (fun _ w' =>
    (distance n (w_amp w') (E angle) <= angle * angle / (4 * IZR k) * apart_weight apart (o_terms o) * vnorm n (w_amp w))%R)).
Proof. exact rotation_error. Qed.
Print Assumptions C60_error.
Theorem C60_commuting_exact : forall vf o angle k n L ps w E d, n < 64 -> lanes_ok L -> op_fits n o -> real_coefs o -> (/ 10 ^ 12 <= Rabs angle)%R ->
  evolution n o (w_amp w) E -> (forall p q, In p (o_terms o) -> In q (o_terms o) -> commute p q) ->
  add_observable_rotation_gate vf o angle k c_new = Ok d ->
  runs (circuit_update_plain n L ps d) w (done (fun _ w' => forall x, x < 2 ^ n -> w_amp w' x = E angle x)).
Proof. exact rotation_exact. Qed.
Print Assumptions C60_commuting_exact.
Theorem C60_commute_test : forall p q, commute p q <-> anticommute p q = false \/ p_coef p = C0 \/ p_coef q = C0.
Proof. exact commute_iff. Qed.
Print Assumptions C60_commute_test.
Theorem C60_converges : forall vf o angle n psi E eps, n < 64 -> op_fits n o -> real_coefs o -> (/ 10 ^ 12 <= Rabs angle)%R -> evolution n o psi E -> (0 < eps)%R ->
  exists K, forall k L ps w d, (K <= k)%Z -> lanes_ok L -> w_amp w = psi -> add_observable_rotation_gate vf o angle k c_new = Ok d ->
    runs (circuit_update_plain n L ps d) w (done (fun _ w' => (distance n (w_amp w') (E angle) < eps)%R)).
Proof. exact rotation_converges. Qed.
Print Assumptions C60_converges.
(** The angles that are skipped *)
Theorem C60_skipped_error : forall n o psi E angle, op_fits n o -> real_coefs o -> evolution n o psi E ->
  (distance n psi (E angle) <= Rabs angle / 2 * coef_sum o * vnorm n psi)%R.
Proof. exact skipped_error. Qed.
Print Assumptions C60_skipped_error.
(** One repetition is not enough in general: X + Z turned by pi takes |0> to |1>. *)
Theorem C60_exact_refuted : exists o angle k E d, o_herm o = true /\ real_coefs o /\ op_fits 1 o /\ evolution 1 o (basis 0) E /\
  add_observable_rotation_gate true o angle k c_new = Ok d /\
  forall L ps w, lanes_ok L -> w_amp w = basis 0 -> runs (circuit_update_plain 1 L ps d) w (done (fun _ w' => w_amp w' 0 = C0 /\ E angle 0 <> C0)).
Proof. exact rotation_not_exact. Qed.
Print Assumptions C60_exact_refuted.
(** Products of observables: X X = 1 is refused; X Y = i Z is accepted and the circuit does not keep the norm. *)
Theorem C60_products_refuted : exists a b d, o_herm a = true /\ o_herm b = true /\ op_fits 1 a /\ op_fits 1 b /\
  (forall vf angle k c, add_observable_rotation_gate vf (op_mul a a) angle k c = Throw) /\
  self_adjoint 1 (op_act (op_mul a a)) /\
  add_observable_rotation_gate true (op_mul a b) 2 1 c_new = Ok d /\
  forall L ps w, lanes_ok L -> w_amp w = basis 0 -> runs (circuit_update_plain 1 L ps d) w (done (fun _ w' => w_amp w' 0 = RtoC (exp 1))).
Proof. exact rotation_flag_wrong. Qed.
Print Assumptions C60_products_refuted.
Example C60_example : exists E d, real_coefs xz /\ op_fits 1 xz /\ evolution 1 xz (basis 0) E /\ add_observable_rotation_gate true xz 1 3 c_new = Ok d /\
  length (c_gates d) = 6%nat /\ apart_weight anticommute (o_terms xz) = 1%R.
Proof. exact xz_instance. Qed.
