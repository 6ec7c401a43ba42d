From Verif Require Export IdentityProofs9 IdentityProofs4.
From Verif Require Import Spec DensityProofs4 DensityProofs6 GatesProofs GatesProofs5 GatesProofs8 GatesProofs9.
Require Import Lia.
Local Open Scope N_scope.

Lemma sandwich_none d U M : mat_eq d U mat_id -> mat_eq d (sandwich d U M) M.
Proof.
  intros A. assert (A' : mat_eq d (mat_adj U) mat_id).
  { intros i j Hi Hj. unfold mat_adj. rewrite A by assumption. unfold mat_id. rewrite N.eqb_sym. destruct (i =? j); apply C_eq; Cunfold; cbn [fst snd]; ring. }
  unfold sandwich. eapply mat_eq_trans; [apply mat_mul_ext; [apply mat_mul_ext; [exact A|apply mat_eq_refl]|exact A']|].
  eapply mat_eq_trans; [apply mat_mul_id_r|apply mat_mul_id_l].
Qed.
Lemma density_twice vf k g n w : own_inverse k -> dm_supported k = true -> make vf k = Ok g -> Forall (fun q => q < n) (call_operands k) -> n < 32 ->
  (exists w', dm_in_turn n [g; g] w w') /\ forall w', dm_in_turn n [g; g] w w' -> mat_eq (2 ^ n) (rho w') (rho w) /\ d_herm w' = d_herm w.
Proof.
  intros Ho Hd E HF Hn. destruct (own_square k Ho) as [T HM]. pose proof (call_wf_ops vf k g n T E HF) as Hwf.
  pose proof (fun w => dm_update_call vf k g n w Hd E HF Hn) as U.
  assert (Q : mat_eq (2 ^ n) (mat_mul (2 ^ n) (full_matrix k) (full_matrix k)) mat_id).
  { intros i j Hi Hj. transitivity (apply_mat (call_targets k) (call_controls k) (call_matrix k) (apply_mat (call_targets k) (call_controls k) (call_matrix k) (basis j)) i).
    - rewrite (apply_mat_full n) by assumption. reflexivity.
    - rewrite (apply_mat_mul n) by exact Hwf. transitivity (apply_mat (call_targets k) (call_controls k) mat_id (basis j) i); [now apply apply_mat_ext_mat|]. rewrite apply_mat_id by exact (wf_NoDup _ _ _ Hwf). rewrite basis_eq. reflexivity. }
  split.
  - destruct (U w) as [H1 (o & Ho1)]. pose proof (H1 o Ho1) as K. destruct o as [[] w1| |]; try contradiction.
    destruct (U w1) as [H2 (o & Ho2)]. pose proof (H2 o Ho2) as K2. destruct o as [[] w2| |]; try contradiction.
    exists w2. econstructor; [exact Ho1|]. econstructor; [exact Ho2|constructor].
  - intros w' H. inversion H as [|? ? ? w1 ? R1 H1]; subst. inversion H1 as [|? ? ? w2 ? R2 H2]; subst. inversion H2; subst.
    pose proof (proj1 (U w) _ R1) as [A1 A2]. pose proof (proj1 (U w1) _ R2) as [B1 B2]. split; [|congruence].
    eapply mat_eq_trans; [exact B1|]. eapply mat_eq_trans; [apply sandwich_ext; [apply mat_eq_refl|exact A1]|].
    eapply mat_eq_trans; [apply sandwich_comp|]. now apply sandwich_none.
Qed.
