From Verif Require Export IdentityDensitySpec IdentityProofs2.
From Verif Require Import Spec DensityProofs4 DensityProofs6 GatesProofs GatesProofs5 GatesProofs8 GatesProofs9.
Require Import Lia.
Local Open Scope N_scope.

Lemma sandwich_comp d U V M : mat_eq d (sandwich d U (sandwich d V M)) (sandwich d (mat_mul d U V) M).
Proof.
  unfold sandwich.
  eapply mat_eq_trans; [apply mat_mul_ext; [apply mat_eq_sym, mat_mul_assoc|apply mat_eq_refl]|].
  eapply mat_eq_trans; [apply mat_mul_assoc|]. apply mat_mul_ext; [apply mat_eq_sym, mat_mul_assoc|]. apply mat_eq_sym, mat_adj_mul.
Qed.
Section Turn.
  Variables (vf : bool) (t : N) (cs vs : list N) (n : N).
  Hypothesis Hn : n < 32.
  Hypothesis Hwf : wf_ops n [t] (with_values cs vs).
  Definition all_of (l : list std1) : matrix := fun i j => seq_act t cs vs l (basis j) i.
  Lemma all_next k l : mat_eq (2 ^ n) (mat_mul (2 ^ n) (all_of l) (full_matrix (Call1 k t cs vs))) (all_of (k :: l)).
  Proof.
    intros i j Hi Hj. unfold all_of at 2. cbn [seq_act fold_left].
    change (fold_left _ l (apply_mat [t] (with_values cs vs) (std1_textbook k) (basis j)) i) with (seq_act t cs vs l (apply_mat [t] (with_values cs vs) (std1_textbook k) (basis j)) i).
    rewrite (seq_act_product t cs vs n Hwf). rewrite (apply_mat_full n) by assumption. unfold mat_mul. apply Csum_ext. intros x Hx.
    unfold all_of. rewrite (seq_act_product t cs vs n Hwf). reflexivity.
  Qed.
  Lemma one_step k g w : make vf (Call1 k t cs vs) = Ok g -> becomes n (dm_update n g) w (sandwich (2 ^ n) (full_matrix (Call1 k t cs vs)) (rho w)) (d_herm w).
  Proof. intros E. apply (dm_update_call vf); try assumption; [reflexivity|]. exact (proj2 Hwf). Qed.
  Lemma turn_exists gs : forall l w, Forall2 (fun k g => make vf (Call1 k t cs vs) = Ok g) l gs -> exists w', dm_in_turn n gs w w'.
  Proof.
    induction gs as [|g gs IH]; intros l w F; inversion F as [|k ? l0 ? E F0]; subst; [exists w; constructor|].
    destruct (one_step k g w E) as [H (o & Ho)]. pose proof (H o Ho) as K. destruct o as [[] w1| |]; try contradiction.
    destruct (IH l0 w1 F0) as (w2 & H2). exists w2. econstructor; eassumption.
  Qed.
  Lemma turn_sandwich gs : forall l w w', Forall2 (fun k g => make vf (Call1 k t cs vs) = Ok g) l gs -> dm_in_turn n gs w w' ->
    mat_eq (2 ^ n) (rho w') (sandwich (2 ^ n) (all_of l) (rho w)) /\ d_herm w' = d_herm w.
  Proof.
    induction gs as [|g gs IH]; intros l w w' F H; inversion F as [|k ? l0 ? E F0]; subst; inversion H as [|? ? ? w1 ? R H1]; subst.
    - split; [|reflexivity]. apply mat_eq_sym.
      assert (A : mat_eq (2 ^ n) (all_of []) mat_id).
      { intros i j Hi Hj. unfold all_of. cbn [seq_act fold_left]. rewrite basis_eq. reflexivity. }
      assert (A' : mat_eq (2 ^ n) (mat_adj (all_of [])) mat_id).
      { intros i j Hi Hj. unfold mat_adj. rewrite A by assumption. unfold mat_id. rewrite N.eqb_sym. destruct (i =? j); apply C_eq; Cunfold; cbn [fst snd]; ring. }
      unfold sandwich. eapply mat_eq_trans; [apply mat_mul_ext; [apply mat_mul_ext; [exact A|apply mat_eq_refl]|exact A']|].
      eapply mat_eq_trans; [apply mat_mul_id_r|apply mat_mul_id_l].
    - destruct (one_step k g w E) as [K _]. pose proof (K _ R) as K1. cbn [done] in K1. destruct K1 as [K1 K2].
      destruct (IH l0 w1 w' F0 H1) as [I1 I2]. split; [|congruence].
      eapply mat_eq_trans; [exact I1|]. eapply mat_eq_trans; [apply sandwich_ext; [apply mat_eq_refl|exact K1]|].
      eapply mat_eq_trans; [apply sandwich_comp|]. apply sandwich_ext; [apply all_next|apply mat_eq_refl].
  Qed.
End Turn.
Lemma density_identities l l' vf t cs vs gs gs' n w : alike l l' ->
  Forall2 (fun k g => make vf (Call1 k t cs vs) = Ok g) l gs -> Forall2 (fun k g => make vf (Call1 k t cs vs) = Ok g) l' gs' ->
  Forall (fun q => q < n) (t :: cs) -> n < 32 ->
  (exists w', dm_in_turn n gs w w') /\ (exists w', dm_in_turn n gs' w w') /\
  forall w1 w2, dm_in_turn n gs w w1 -> dm_in_turn n gs' w w2 -> mat_eq (2 ^ n) (rho w1) (rho w2) /\ d_herm w1 = d_herm w2.
Proof.
  intros Ha F F' HF Hn.
  assert (Hops : Forall (fun q => q < n) (call_operands (Call1 GX t cs vs))).
  { unfold call_operands. cbn [call_targets call_controls app]. inversion HF as [|? ? H1 H2]; subst. constructor; [exact H1|].
    apply Forall_forall. intros q Hq. apply in_values in Hq. rewrite Forall_forall in H2. auto. }
  assert (Hwf : wf_ops n [t] (with_values cs vs)).
  { destruct (alike_nonempty l l' Ha) as (k & r & ->). inversion F as [|? g ? ? E _]; subst. exact (call_wf_ops vf (Call1 k t cs vs) g n I E Hops). }
  split; [exact (turn_exists vf t cs vs n Hn Hwf gs l w F)|]. split; [exact (turn_exists vf t cs vs n Hn Hwf gs' l' w F')|].
  intros w1 w2 H1 H2. destruct (turn_sandwich vf t cs vs n Hn Hwf gs l w w1 F H1) as [A1 A2], (turn_sandwich vf t cs vs n Hn Hwf gs' l' w w2 F' H2) as [B1 B2].
  split; [|congruence]. eapply mat_eq_trans; [exact A1|]. eapply mat_eq_trans; [|apply mat_eq_sym; exact B1].
  apply sandwich_ext; [|apply mat_eq_refl]. intros i j _ _. unfold all_of. exact (alike_act t cs vs n Hwf l l' (basis j) i Ha).
Qed.
