From Verif Require Export IdentityProofs3.
From Verif Require Import Spec PauliProofs GatesProofs GatesProofs2 GatesProofs3 GatesProofs5 GatesProofs6 GatesProofs8 GatesProofs9.
Require Import Lia Lra.
Local Open Scope N_scope.

Lemma square_as d A M : mat_eq d A M -> mat_eq d (mat_mul d M M) mat_id -> mat_eq d (mat_mul d A A) mat_id.
Proof.
  intros H K i j Hi Hj. rewrite <- (K i j Hi Hj). unfold mat_mul. apply Csum_ext. intros k Hk. now rewrite !H by assumption.
Qed.
Lemma swap_twice : mat_eq 4 (mat_mul 4 swap_textbook swap_textbook) mat_id.
Proof.
  refine (square_as 4 _ _ _ (proj1 (proj1 (swap_self (GBase 0 0 0))))).
  intros i j Hi Hj. rewrite <- (swap_mat_textbook i j Hi Hj). apply swap_matrix_eq; assumption.
Qed.
Lemma ecr_twice : mat_eq 4 (mat_mul 4 ecr_textbook ecr_textbook) mat_id.
Proof.
  refine (square_as 4 _ _ _ (proj1 (proj1 (ecr_self (GBase 0 0 0) 0 1 ltac:(discriminate))))).
  intros i j Hi Hj. rewrite <- (ecr_mat_textbook i j Hi Hj). apply ecr_get_matrix; [reflexivity|assumption|assumption].
Qed.
Lemma pauli1_twice k : k = 1 \/ k = 3 -> mat_eq 2 (mat_mul 2 (pauli1 k) (pauli1 k)) mat_id.
Proof.
  intros Hk i j Hi Hj. rewrite mul2.
  assert (i = 0 \/ i = 1) as [-> | ->] by lia; assert (j = 0 \/ j = 1) as [-> | ->] by lia; destruct Hk as [-> | ->]; vm_compute; apply C_eq; cbn [fst snd]; ring.
Qed.
Lemma own_square k : own_inverse k -> call_typed k /\
  mat_eq (2 ^ N.of_nat (length (call_targets k))) (mat_mul (2 ^ N.of_nat (length (call_targets k))) (call_matrix k) (call_matrix k)) mat_id.
Proof.
  destruct 1 as [a b cs vs|a b cs vs|c t|c t|c d t|p cs vs Hb Hp Hc|ts M cs vs u HM]; (split; [try exact I|]).
  - exact swap_twice.
  - exact ecr_twice.
  - apply (pauli1_twice 1). now left.
  - apply (pauli1_twice 3). now right.
  - apply (pauli1_twice 1). now left.
  - now split.
  - cbn [call_targets call_matrix]. set (P := pauli_textbook _ _ _). set (d := 2 ^ _).
    assert (HP : mat_eq d (mat_mul d P P) mat_id) by (unfold d; rewrite bits_length; apply pauli_square).
    intros i j Hi Hj. rewrite <- (HP i j Hi Hj). unfold mat_mul. apply Csum_ext. intros k Hk.
    transitivity ((p_coef p * p_coef p) * (P i k * P k j))%C; [ring|]. rewrite Hc. ring.
  - exact HM.
Qed.
Lemma twice_nothing vf k g n B L psi : own_inverse k -> make vf k = Ok g -> Forall (fun q => q < n) (call_operands k) -> sizes_ok n B L ->
  (exists r, in_turn n B L [g; g] psi r) /\ forall r, in_turn n B L [g; g] psi r -> forall a, a < B * 2 ^ n -> r a = psi a.
Proof.
  intros Ho E HF Hs. destruct (own_square k Ho) as [T HM].
  pose proof (call_wf_ops vf k g n T E HF) as Hwf.
  pose proof (fun p => updating_call vf k g n B L p T E HF Hs) as U. split.
  - destruct (updating_exists _ _ _ _ _ _ (U psi)) as (r & Hr). destruct (updating_exists _ _ _ _ _ _ (U r)) as (r2 & Hr2).
    exists r2. econstructor; [exact Hr|]. econstructor; [exact Hr2|constructor].
  - intros r H a Ha. inversion H as [|? ? ? phi ? R1 H2]; subst. inversion H2 as [|? ? ? phi2 ? R2 H3]; subst. inversion H3; subst.
    rewrite (updating_result _ _ _ _ _ _ _ _ (U phi) R2 Ha).
    rewrite (apply_mat_local_flat _ _ _ phi (apply_mat (call_targets k) (call_controls k) (call_matrix k) psi) n B a).
    + rewrite (apply_mat_mul n) by exact Hwf. rewrite <- (apply_mat_id (call_targets k) (call_controls k) psi a (wf_NoDup _ _ _ Hwf)).
      apply apply_mat_ext_mat. exact HM.
    + exact (wf_NoDup _ _ _ Hwf).
    + exact (wf_lt _ _ _ Hwf).
    + intros x Hx. exact (updating_result _ _ _ _ _ _ _ _ (U psi) R1 Hx).
    + exact Ha.
Qed.
