From Verif Require Export IdentityProofs2.
From Verif Require Import Spec PauliProofs GatesProofs GatesProofs2 GatesProofs5 GatesProofs6 GatesProofs8 GatesProofs9.
Require Import Lia Lra.
Local Open Scope N_scope.

Lemma cosh_add x y : (cosh (x + y) = cosh x * cosh y + sinh x * sinh y)%R.
Proof. unfold cosh, sinh. rewrite Ropp_plus_distr, !exp_plus. field. Qed.
Lemma sinh_add x y : (sinh (x + y) = sinh x * cosh y + cosh x * sinh y)%R.
Proof. unfold cosh, sinh. rewrite Ropp_plus_distr, !exp_plus. field. Qed.
Lemma Ccos_add h k : (Ccos h * Ccos k - Csin h * Csin k = Ccos (h + k))%C.
Proof. destruct h as [a b], k as [c d]. unfold Ccos, Csin. apply C_eq; Cunfold; cbn [fst snd]; rewrite ?cos_plus, ?sin_plus, ?cosh_add, ?sinh_add; ring. Qed.
Lemma Csin_add h k : (Ccos h * Csin k + Csin h * Ccos k = Csin (h + k))%C.
Proof. destruct h as [a b], k as [c d]. unfold Ccos, Csin. apply C_eq; Cunfold; cbn [fst snd]; rewrite ?cos_plus, ?sin_plus, ?cosh_add, ?sinh_add; ring. Qed.

(** Two calls on the same targets and controls against one with the product of their matrices *)
Lemma two_as_one vf k1 k2 k3 g1 g2 g3 n B L psi : call_typed k1 -> call_typed k2 -> call_typed k3 ->
  make vf k1 = Ok g1 -> make vf k2 = Ok g2 -> make vf k3 = Ok g3 ->
  call_targets k2 = call_targets k1 -> call_targets k3 = call_targets k1 -> call_controls k2 = call_controls k1 -> call_controls k3 = call_controls k1 ->
  Forall (fun q => q < n) (call_operands k1) -> sizes_ok n B L ->
  mat_eq (2 ^ N.of_nat (length (call_targets k1))) (mat_mul (2 ^ N.of_nat (length (call_targets k1))) (call_matrix k2) (call_matrix k1)) (call_matrix k3) ->
  (exists r, in_turn n B L [g1; g2] psi r) /\ (exists r, in_turn n B L [g3] psi r) /\
  forall r r', in_turn n B L [g1; g2] psi r -> in_turn n B L [g3] psi r' -> forall a, a < B * 2 ^ n -> r a = r' a.
Proof.
  intros T1 T2 T3 E1 E2 E3 Et2 Et3 Ec2 Ec3 HF Hs HM.
  pose proof (call_wf_ops vf k1 g1 n T1 E1 HF) as Hwf.
  assert (HF2 : Forall (fun q => q < n) (call_operands k2)) by (unfold call_operands in *; now rewrite Et2, Ec2).
  assert (HF3 : Forall (fun q => q < n) (call_operands k3)) by (unfold call_operands in *; now rewrite Et3, Ec3).
  pose proof (fun p => updating_call vf k1 g1 n B L p T1 E1 HF Hs) as U1.
  pose proof (fun p => updating_call vf k2 g2 n B L p T2 E2 HF2 Hs) as U2. rewrite Et2, Ec2 in U2.
  pose proof (fun p => updating_call vf k3 g3 n B L p T3 E3 HF3 Hs) as U3. rewrite Et3, Ec3 in U3.
  split; [|split].
  - destruct (updating_exists _ _ _ _ _ _ (U1 psi)) as (r & Hr). destruct (updating_exists _ _ _ _ _ _ (U2 r)) as (r2 & Hr2).
    exists r2. econstructor; [exact Hr|]. econstructor; [exact Hr2|constructor].
  - destruct (updating_exists _ _ _ _ _ _ (U3 psi)) as (r & Hr). exists r. econstructor; [exact Hr|constructor].
  - intros r r' H H' a Ha.
    inversion H as [|? ? ? phi ? R1 H2]; subst. inversion H2 as [|? ? ? phi2 ? R2 H3]; subst. inversion H3; subst.
    inversion H' as [|? ? ? phi3 ? R3 H4]; subst. inversion H4; subst.
    rewrite (updating_result _ _ _ _ _ _ _ _ (U2 phi) R2 Ha), (updating_result _ _ _ _ _ _ _ _ (U3 psi) R3 Ha).
    rewrite (apply_mat_local_flat _ _ _ phi (apply_mat (call_targets k1) (call_controls k1) (call_matrix k1) psi) n B a).
    + rewrite (apply_mat_mul n) by exact Hwf. apply apply_mat_ext_mat. exact HM.
    + exact (wf_NoDup _ _ _ Hwf).
    + exact (wf_lt _ _ _ Hwf).
    + intros x Hx. exact (updating_result _ _ _ _ _ _ _ _ (U1 psi) R1 Hx).
    + exact Ha.
Qed.
Lemma operands_from ts cs vs n : Forall (fun q => q < n) (ts ++ cs) -> Forall (fun q => q < n) (ts ++ map fst (with_values cs vs)).
Proof.
  rewrite !Forall_app. intros [H1 H2]. split; [exact H1|]. apply Forall_forall. intros q Hq. apply in_values in Hq.
  rewrite Forall_forall in H2. auto.
Qed.
Lemma phases_add vf a b cs vs g1 g2 g3 n B L psi :
  make vf (CallGlobalPhase a cs vs) = Ok g1 -> make vf (CallGlobalPhase b cs vs) = Ok g2 -> make vf (CallGlobalPhase (a + b) cs vs) = Ok g3 ->
  Forall (fun q => q < n) cs -> sizes_ok n B L ->
  (exists r, in_turn n B L [g1; g2] psi r) /\ (exists r, in_turn n B L [g3] psi r) /\
  forall r r', in_turn n B L [g1; g2] psi r -> in_turn n B L [g3] psi r' -> forall x, x < B * 2 ^ n -> r x = r' x.
Proof.
  intros E1 E2 E3 HF Hs. apply (two_as_one vf (CallGlobalPhase a cs vs) (CallGlobalPhase b cs vs) (CallGlobalPhase (a + b) cs vs)); try exact I; try reflexivity; try assumption.
  - apply (operands_from [] cs vs n HF).
  - intros i j _ _. cbn [call_targets length call_matrix]. unfold mat_mul. change (2 ^ N.of_nat 0) with 1. rewrite (Csum_single _ _ 0) by (try reflexivity; intros k Hk Hne; exfalso; lia).
    rewrite Cexpi_add. ring.
Qed.
Lemma pauli_turns_add vf p a b cs vs g1 g2 g3 n B L psi : p_bf p < 2 ^ 64 -> p_pf p < 2 ^ 64 ->
  make vf (CallPauliRotation p a cs vs) = Ok g1 -> make vf (CallPauliRotation p b cs vs) = Ok g2 -> make vf (CallPauliRotation p (a + b) cs vs) = Ok g3 ->
  Forall (fun q => q < n) (bits (N.lor (p_bf p) (p_pf p)) ++ cs) -> sizes_ok n B L ->
  (exists r, in_turn n B L [g1; g2] psi r) /\ (exists r, in_turn n B L [g3] psi r) /\
  forall r r', in_turn n B L [g1; g2] psi r -> in_turn n B L [g3] psi r' -> forall x, x < B * 2 ^ n -> r x = r' x.
Proof.
  intros Hb Hp E1 E2 E3 HF Hs.
  apply (two_as_one vf (CallPauliRotation p a cs vs) (CallPauliRotation p b cs vs) (CallPauliRotation p (a + b) cs vs)); try (split; assumption); try reflexivity; try assumption.
  - apply (operands_from _ cs vs n HF).
  - cbn [call_targets call_matrix]. set (P := pauli_textbook _ _ _). set (d := 2 ^ _).
    assert (HP : mat_eq d (mat_mul d P P) mat_id) by (unfold d; rewrite bits_length; apply pauli_square).
    intros i j Hi Hj. change pauli_rotation_textbook with rot_mat. rewrite (rot_mat_mul d _ _ P HP i j Hi Hj). rewrite Ccos_add, Csin_add.
    replace (Cscale (b / 2) (p_coef p) + Cscale (a / 2) (p_coef p))%C with (Cscale ((a + b) / 2) (p_coef p)) by (destruct (p_coef p); apply C_eq; Cunfold; cbn [fst snd]; field).
    reflexivity.
Qed.
Lemma pauli_turn_none vf p cs vs g n B L psi : p_bf p < 2 ^ 64 -> p_pf p < 2 ^ 64 -> make vf (CallPauliRotation p 0 cs vs) = Ok g ->
  Forall (fun q => q < n) (bits (N.lor (p_bf p) (p_pf p)) ++ cs) -> sizes_ok n B L -> updating n B L g psi psi.
Proof.
  intros Hb Hp E HF Hs. assert (HF' := operands_from _ cs vs n HF).
  pose proof (call_wf_ops vf (CallPauliRotation p 0 cs vs) g n (conj Hb Hp) E HF') as Hwf.
  eapply updating_ext; [|apply (updating_call vf (CallPauliRotation p 0 cs vs)); [now split|exact E|exact HF'|exact Hs]].
  intros x _. etransitivity; [|exact (apply_mat_id (call_targets (CallPauliRotation p 0 cs vs)) (call_controls (CallPauliRotation p 0 cs vs)) psi x (wf_NoDup _ _ _ Hwf))].
  apply apply_mat_ext_mat. intros i j _ _. cbn [call_matrix]. unfold pauli_rotation_textbook.
  replace (Cscale (0 / 2) (p_coef p)) with C0 by (destruct (p_coef p); apply C_eq; Cunfold; cbn [fst snd]; field).
  unfold Ccos, Csin, C0. cbn [fst snd]. rewrite cos_0, sin_0. unfold cosh, sinh. rewrite Ropp_0, exp_0.
  generalize (mat_id i j) (pauli_textbook (p_bf p) (p_pf p) (bits (N.lor (p_bf p) (p_pf p))) i j). intros u v. apply C_eq; Cunfold; cbn [fst snd]; field.
Qed.
