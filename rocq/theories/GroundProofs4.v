(** Where the power method does not find the ground state; concrete cases. *)
From Verif Require Export GroundProofs3.
From Coq Require Import Lia Lra Psatz.
Open Scope N_scope.
Open Scope list_scope.

(** Operators that are diagonal in the computational basis *)
Definition diagonal_with (n : N) (o : operator) (d : N -> R) : Prop := forall psi x, x < 2 ^ n -> op_act o psi x = (RtoC (d x) * psi x)%C.
Lemma zterm_act c mask psi x : pauli_act (zterm c mask) psi x = (RtoC c * pauli_sign (N.land x mask) * psi x)%C.
Proof. rewrite pauli_act_eq. cbn [zterm p_coef p_bf p_pf]. now rewrite phase_diag, N.lxor_0_r. Qed.
Lemma shifted_power_diagonal n o d m k psi x : diagonal_with n o d -> x < 2 ^ n -> shifted_power o (RtoC m) k psi x = (RtoC ((d x - m) ^ k) * psi x)%C.
Proof.
  intros Hd Hx. induction k as [|k IH]; cbn [shifted_power pow]; [c_eq; cbn; ring|]. unfold shifted. rewrite (Hd _ x Hx), IH, RtoC_mul. c_eq; cbn; ring.
Qed.
Lemma quad_diagonal n o d psi : diagonal_with n o d -> Re (inner n psi (op_act o psi)) = Rsuml (fun x => (d x * Cnorm2 (psi x))%R) (seqN (2 ^ n)).
Proof.
  intros Hd. unfold inner. rewrite (Csum_ext _ _ (fun x => RtoC (d x * Cnorm2 (psi x)))).
  - unfold Csum, Csuml, Rsuml. induction (seqN (2 ^ n)) as [|x l IH]; cbn [map fold_right]; [reflexivity|]. unfold Re in *. cbn [Cadd fst]. rewrite IH. reflexivity.
  - intros x Hx. rewrite (Hd psi x Hx). unfold Cnorm2. c_eq; cbn; ring.
Qed.
Lemma Rsuml_le {T} (f g : T -> R) l : (forall x, In x l -> (f x <= g x)%R) -> (Rsuml f l <= Rsuml g l)%R.
Proof. induction l as [|x l IH]; intros H; unfold Rsuml in *; cbn [map fold_right]; [lra|]. apply Rplus_le_compat; [apply H; now left|apply IH; intros; apply H; now right]. Qed.
Lemma diagonal_least n o d lambda : diagonal_with n o d -> (forall x, x < 2 ^ n -> (lambda <= d x)%R) -> energy_at_least n o lambda.
Proof.
  intros Hd H phi. rewrite (quad_diagonal n o d phi Hd). unfold sqnorm. rewrite <- Rsuml_scale. apply Rsuml_le. intros x Hx. apply in_seqN in Hx.
  apply Rmult_le_compat_r; [apply Cnorm2_nonneg|auto].
Qed.
Lemma diagonal_most n o d m : diagonal_with n o d -> (forall x, x < 2 ^ n -> (d x <= m)%R) -> energy_at_most n o m.
Proof.
  intros Hd H phi. rewrite (quad_diagonal n o d phi Hd). unfold sqnorm. rewrite <- Rsuml_scale. apply Rsuml_le. intros x Hx. apply in_seqN in Hx.
  apply Rmult_le_compat_r; [apply Cnorm2_nonneg|auto].
Qed.
Lemma sqnorm_basis n j : j < 2 ^ n -> sqnorm n (basis j) = 1%R.
Proof.
  intros Hj. unfold sqnorm. assert (H : forall l, NoDup l -> Rsuml (fun x => Cnorm2 (basis j x)) l = if in_dec N.eq_dec j l then 1%R else 0%R).
  { induction l as [|x l IH]; intros Hnd; unfold Rsuml in *; cbn [map fold_right]; [reflexivity|]. inversion_clear Hnd as [|? ? Hx Hl]. rewrite (IH Hl). unfold basis.
    destruct (N.eqb_spec x j) as [->|E].
    - destruct (in_dec N.eq_dec j l); [contradiction|]. destruct (in_dec N.eq_dec j (j :: l)) as [|Hn]; [|exfalso; apply Hn; now left]. unfold Cnorm2. cbn. ring.
    - destruct (in_dec N.eq_dec j l) as [Hi|Hi], (in_dec N.eq_dec j (x :: l)) as [Hi'|Hi']; try (unfold Cnorm2; cbn; ring); exfalso; [apply Hi'; now right|destruct Hi'; congruence]. }
  rewrite H by apply NoDup_seqN. destruct (in_dec _ _ _) as [|Hn]; [reflexivity|]. exfalso. apply Hn. now apply in_seqN.
Qed.

(** 2 Z0 + Z1, started in |01>, an eigenstate with energy -1 *)
Definition unlucky_d (x : N) : R := (2 * (if parity (N.land x 1) then -1 else 1) + (if parity (N.land x 2) then -1 else 1))%R.

(** ** Started in an eigenstate, the method stays there *)
Lemma shifted_power_eigen n o e m k psi : op_fits n o -> eigenstate n o e psi -> forall x, x < 2 ^ n -> shifted_power o (RtoC m) k psi x = Cscale ((e - m) ^ k) (psi x).
Proof.
  intros Hf He. induction k as [|k IH]; intros x Hx; cbn [shifted_power pow]; [unfold Cscale; destruct (psi x); cbn; f_equal; ring|].
  rewrite (shifted_local n o (RtoC m) Hf _ (fun x => C0 + RtoC ((e - m) ^ k) * psi x)%C) by (intros; try (rewrite IH by assumption; c_eq; cbn; ring); assumption).
  rewrite shifted_linear. assert (E : shifted o (RtoC m) (fun _ => C0) x = C0).
  { pose proof (shifted_linear o (RtoC m) (fun _ => C0) (fun _ => C0) (- C1)%C x) as E. rewrite (shifted_local n o (RtoC m) Hf _ (fun _ => C0)) in E by (intros; try ring; assumption). rewrite E at 1. ring. }
  rewrite E. unfold shifted. rewrite (He x Hx). c_eq; cbn; ring.
Qed.
Lemma eigen_quad n o e u : eigenstate n o e u -> inner n u (op_act o u) = RtoC (e * sqnorm n u).
Proof.
  intros He. rewrite (inner_ext n u _ u (fun x => RtoC e * u x)%C); [|reflexivity|intros x Hx; rewrite (He x Hx); c_eq; cbn; ring].
  unfold inner. rewrite (Csum_ext _ _ (fun x => RtoC e * (Cconj (u x) * u x))%C) by (intros; ring). rewrite Csum_mul_l. fold (inner n u u). rewrite inner_self, RtoC_mul. reflexivity.
Qed.
Theorem power_stuck n o mu m e k w : solvable n o -> o_herm o = true -> shift_of o mu = RtoC m -> sqnorm n (w_amp w) = 1%R -> eigenstate n o e (w_amp w) -> e <> m ->
  solves (solve_ground_state_by_power_method o n k mu) w (fun E _ => E = RtoC e).
Proof.
  intros Hs Hh Hm H1 He Hne. assert (Hf : op_fits n o) by apply Hs.
  assert (Hp : forall x, x < 2 ^ n -> shifted_power o (shift_of o mu) k (w_amp w) x = Cscale ((e - m) ^ k) (w_amp w x)) by (rewrite Hm; now apply (shifted_power_eigen n)).
  assert (Hz : ((e - m) ^ k <> 0)%R) by (apply pow_nonzero; lra).
  assert (Hq : sqnorm n (shifted_power o (shift_of o mu) k (w_amp w)) = ((e - m) ^ k * (e - m) ^ k)%R) by (rewrite (sqnorm_ext n _ _ Hp), sqnorm_real_scale, H1; ring).
  assert (Hnz : sqnorm n (shifted_power o (shift_of o mu) k (w_amp w)) <> 0%R) by (rewrite Hq; now apply Rmult_integral_contrapositive_currified).
  eapply runs_weaken; [apply (power_along o n Hs Hh mu w k Hnz)|]. intros [E w'|w'|] H; cbn [done] in *; try contradiction. destruct H as [Hpsi ->].
  assert (Hex : exists c, (c * c = / sqnorm n (shifted_power o (shift_of o mu) k (w_amp w)))%R /\
    forall x, x < 2 ^ n -> w_amp w' x = Cscale c (shifted_power o (shift_of o mu) k (w_amp w) x)).
  { eexists. split; [exact (norm_sq o n mu w H1 k Hnz)|exact Hpsi]. }
  clear Hpsi. destruct Hex as (c & Hc & Hpsi).
  assert (Hpsi2 : forall x, x < 2 ^ n -> w_amp w' x = (C0 + RtoC (c * (e - m) ^ k) * w_amp w x)%C).
  { intros x Hx. rewrite (Hpsi x Hx), (Hp x Hx). c_eq; cbn; ring. }
  rewrite (eigen_quad n o e (w_amp w')).
  - rewrite (sqnorm_ext n _ (fun x => Cscale (c * (e - m) ^ k) (w_amp w x))) by (intros x Hx; rewrite (Hpsi2 x Hx); c_eq; cbn; ring).
    rewrite sqnorm_real_scale, H1. f_equal. replace (e * (c * (e - m) ^ k * (c * (e - m) ^ k) * 1))%R with (e * (c * c * ((e - m) ^ k * (e - m) ^ k)))%R by ring. rewrite Hc, Hq. field. exact Hz.
  - intros x Hx. rewrite (op_act_local n o Hf _ _ Hpsi2 x Hx), op_act_linear.
    assert (E : op_act o (fun _ => C0) x = C0).
    { pose proof (op_act_linear o (fun _ => C0) (fun _ => C0) (- C1)%C x) as E. rewrite (op_act_local n o Hf _ (fun _ => C0)) in E by (intros; try ring; assumption). rewrite E at 1. ring. }
    rewrite E, (He x Hx), (Hpsi2 x Hx). c_eq; cbn; ring.
Qed.
Theorem power_nan n o mu m k w : solvable n o -> o_herm o = true -> shift_of o mu = RtoC m -> eigenstate n o m (w_amp w) -> (0 < k)%nat ->
  undefined (solve_ground_state_by_power_method o n k mu) w.
Proof.
  intros Hs Hh Hm He Hk. assert (Hf : op_fits n o) by apply Hs. apply power_undefined; [assumption|assumption|assumption|].
  rewrite Hm, (sqnorm_ext n _ (fun x => Cscale ((m - m) ^ k) (w_amp w x))) by now apply (shifted_power_eigen n).
  rewrite sqnorm_real_scale. replace ((m - m) ^ k)%R with 0%R; [ring|]. replace (m - m)%R with 0%R by ring. symmetry. apply pow_i. exact Hk.
Qed.

(** ** Concrete failures *)
Ltac below_cases x Hx := let H := fresh in pose proof (proj2 (in_seqN x _) Hx) as H; vm_compute in H; repeat destruct H as [<-|H]; try contradiction.
Lemma unlucky_diag : diagonal_with 2 unlucky unlucky_d.
Proof.
  intros psi x _. unfold op_act, terms_act, Csuml, unlucky, unlucky_d. cbn [o_terms map fold_right]. rewrite !zterm_act. unfold pauli_sign.
  destruct (parity (N.land x 1)), (parity (N.land x 2)); c_eq; cbn; ring.
Qed.
Lemma unlucky_solvable : solvable 2 unlucky.
Proof. repeat split; try discriminate; try reflexivity. repeat constructor. Qed.
Theorem unlucky_start :
  solvable 2 unlucky /\ o_herm unlucky = true /\ sqnorm 2 (basis 1) = 1%R /\
  ground_state 2 unlucky (-3) (basis 3) /\
  forall k, solves (solve_ground_state_by_power_method unlucky 2 k None) (start (basis 1)) (fun E _ => E = RtoC (-1)).
Proof.
  split; [exact unlucky_solvable|]. split; [reflexivity|]. split; [now apply sqnorm_basis|]. split.
  - split; [|split].
    + apply (diagonal_least 2 unlucky unlucky_d); [exact unlucky_diag|]. intros x _. unfold unlucky_d. destruct (parity _), (parity _); lra.
    + rewrite sqnorm_basis by reflexivity. lra.
    + intros x Hx. rewrite (unlucky_diag _ x Hx). below_cases x Hx; unfold unlucky_d, basis; cbn; c_eq; cbn; ring.
  - intros k. apply (power_stuck 2 unlucky None 3 (-1) k); [exact unlucky_solvable|reflexivity| |now apply sqnorm_basis| |lra].
    + unfold shift_of, coef_sum, Rsuml, unlucky, zterm. cbn. rewrite !Rabs_right by lra. f_equal. ring.
    + intros x Hx. cbn [start w_amp]. rewrite (unlucky_diag _ x Hx). below_cases x Hx; unfold unlucky_d, basis; cbn; c_eq; cbn; ring.
Qed.
(** the identity: every state is a ground state, and the result is NaN *)
Lemma one_diag n : diagonal_with n one_op (fun _ => 1%R).
Proof. intros psi x _. unfold op_act, terms_act, Csuml, one_op. cbn [o_terms map fold_right]. rewrite zterm_act, N.land_0_r. change (pauli_sign 0) with C1. ring. Qed.
Theorem identity_nan n psi k : 0 < n -> n <= 63 -> (0 < k)%nat ->
  ground_state n one_op 1 (basis 0) /\ undefined (solve_ground_state_by_power_method one_op n k None) (start psi).
Proof.
  intros Hn Hn' Hk. split.
  - split; [|split].
    + apply (diagonal_least n one_op (fun _ => 1%R)); [apply one_diag|]. intros; lra.
    + rewrite sqnorm_basis by (apply N.neq_0_lt_0, N.pow_nonzero; discriminate). lra.
    + intros x Hx. rewrite (one_diag n _ x Hx). c_eq; cbn; ring.
  - apply (power_nan n one_op None 1); [|reflexivity| | |exact Hk].
    + repeat split; try assumption; try discriminate. constructor; [|constructor]. split; cbn; apply N.neq_0_lt_0, N.pow_nonzero; discriminate.
    + unfold shift_of, coef_sum, Rsuml, one_op, zterm. cbn. rewrite Rabs_right by lra. f_equal. ring.
    + intros x Hx. rewrite (one_diag n _ x Hx). c_eq; cbn; ring.
Qed.
(** Z with mu = 0, started in |0>+|1> (not an upper bound of the energies) *)
Definition z_d (x : N) : R := if parity (N.land x 1) then (-1)%R else 1%R.
Lemma z_diag : diagonal_with 1 z_op z_d.
Proof. intros psi x _. unfold op_act, terms_act, Csuml, z_op, z_d. cbn [o_terms map fold_right]. rewrite zterm_act. unfold pauli_sign. destruct (parity _); c_eq; cbn; ring. Qed.
Lemma z_solvable : solvable 1 z_op.
Proof. repeat split; try discriminate; try reflexivity. repeat constructor. Qed.
Lemma half_sqrt : (/ sqrt 2 * / sqrt 2 = / 2)%R. Proof. rewrite <- Rinv_mult, sqrt_sqrt by lra. reflexivity. Qed.
Lemma plus_norm : sqnorm 1 plus = 1%R.
Proof. unfold sqnorm. change (seqN (2 ^ 1)) with [0; 1]. unfold Rsuml, plus, Cnorm2, RtoC. cbn [map fold_right fst snd]. rewrite half_sqrt. field. Qed.
Theorem z_ground : ground_state 1 z_op (-1) (basis 1).
Proof.
  split; [|split].
  + apply (diagonal_least 1 z_op z_d); [exact z_diag|]. intros x _. unfold z_d. destruct (parity _); lra.
  + rewrite sqnorm_basis by reflexivity. lra.
  + intros x Hx. rewrite (z_diag _ x Hx). below_cases x Hx; unfold z_d, basis; cbn; c_eq; cbn; ring.
Qed.
Lemma plus_overlap : inner 1 (basis 1) plus <> C0.
Proof.
  unfold inner, Csum, Csuml. change (seqN (2 ^ 1)) with [0; 1]. unfold basis, plus. cbn [map fold_right]. change (0 =? 1) with false. change (1 =? 1) with true. cbn. intros [= H _].
  assert (0 < / sqrt 2)%R by (apply Rinv_0_lt_compat, sqrt_lt_R0; lra). lra.
Qed.
Theorem small_shift :
  solvable 1 z_op /\ o_herm z_op = true /\ sqnorm 1 plus = 1%R /\ ground_state 1 z_op (-1) (basis 1) /\ inner 1 (basis 1) plus <> C0 /\
  forall k, solves (solve_ground_state_by_power_method z_op 1 k (Some C0)) (start plus) (fun E _ => E = RtoC 0).
Proof.
  split; [exact z_solvable|]. split; [reflexivity|]. split; [exact plus_norm|]. split; [exact z_ground|]. split; [exact plus_overlap|]. intros k.
  assert (Hsa : self_adjoint 1 (op_act z_op)). { apply real_coefs_sa; [apply z_solvable|]. constructor; [reflexivity|constructor]. }
  assert (Hp : forall x, x < 2 ^ 1 -> shifted_power z_op C0 k plus x = Cscale (z_d x ^ k) (plus x)).
  { intros x Hx. change C0 with (RtoC 0). rewrite (shifted_power_diagonal 1 z_op z_d 0 k plus x z_diag Hx). rewrite Rminus_0_r. c_eq; cbn; ring. }
  assert (Hone : forall x, Cnorm2 (Cscale (z_d x ^ k) (plus x)) = (/ 2)%R).
  { intros x. rewrite Cnorm2_scale. unfold plus, Cnorm2, RtoC. cbn [fst snd]. rewrite half_sqrt, <- Rpow_mult_distr. replace (z_d x * z_d x)%R with 1%R by (unfold z_d; destruct (parity _); ring). rewrite pow1. field. }
  assert (Hq : sqnorm 1 (shifted_power z_op C0 k plus) = 1%R).
  { rewrite (sqnorm_ext 1 _ _ Hp). unfold sqnorm. change (seqN (2 ^ 1)) with [0; 1]. unfold Rsuml. cbn [map fold_right]. rewrite !Hone. field. }
  eapply runs_weaken; [apply (power_energy z_op 1 z_solvable eq_refl (Some C0) (start plus) Hsa plus_norm k)|]; [cbn [shift_of start w_amp]; rewrite Hq; lra|].
  intros [E w'|w'|] H; cbn [done] in *; try contradiction. destruct H as [-> _]. cbn [shift_of start w_amp]. unfold rayleigh. rewrite Hq, (quad_diagonal 1 z_op z_d _ z_diag).
  change (seqN (2 ^ 1)) with [0; 1]. unfold Rsuml. cbn [map fold_right]. rewrite (Hp 0), (Hp 1) by reflexivity. rewrite !Hone. unfold z_d. change (parity (N.land 0 1)) with false. change (parity (N.land 1 1)) with true. cbv iota. f_equal. field.
Qed.
Lemma z_example : solvable 1 z_op /\ o_herm z_op = true /\ self_adjoint 1 (op_act z_op) /\ real_coefs z_op /\ sqnorm 1 plus = 1%R /\
  shift_of z_op None = RtoC 1 /\ energy_at_most 1 z_op 1 /\ ground_state 1 z_op (-1) (basis 1) /\ inner 1 (basis 1) plus <> C0 /\
  forall k, sqnorm 1 (shifted_power z_op (shift_of z_op None) k plus) <> 0%R.
Proof.
  assert (Hr : real_coefs z_op) by (constructor; [reflexivity|constructor]). assert (Hsa : self_adjoint 1 (op_act z_op)) by (apply real_coefs_sa; [apply z_solvable|exact Hr]).
  assert (Hm : shift_of z_op None = RtoC 1). { unfold shift_of, coef_sum, Rsuml, z_op, zterm. cbn. rewrite Rabs_right by lra. f_equal. ring. }
  assert (Hu : energy_at_most 1 z_op 1). { apply (diagonal_most 1 z_op z_d); [exact z_diag|]. intros x _. unfold z_d. destruct (parity _); lra. }
  repeat (split; [first [exact z_solvable|reflexivity|exact Hsa|exact Hr|exact plus_norm|exact Hm|exact Hu|exact z_ground|exact plus_overlap]|]).
  intros k. rewrite Hm. pose proof (a_pos 1 z_op 1 plus Hsa (-1) (basis 1) z_ground plus_overlap ltac:(lra) k) as H. cbv beta zeta in H. lra.
Qed.
