From Verif Require Export IdentityProofs7.
From Verif Require Import Spec GatesProofs GatesProofs2 GatesProofs5 GatesProofs8 GatesProofs9.
Require Import Lia Permutation.
Local Open Scope N_scope.

Lemma ctrl_perm l l' x : Permutation l l' -> ctrl_ok l x = ctrl_ok l' x.
Proof.
  unfold ctrl_ok. induction 1 as [|a l l' H IH|a b l|l l' l'' H1 IH1 H2 IH2]; cbn [forallb]; [reflexivity|now rewrite IH| |congruence].
  now rewrite !andb_assoc, (andb_comm (Bool.eqb (N.testbit x (fst b)) (snd b))).
Qed.
Lemma same_result n B L g g' psi phi phi' : updating n B L g psi phi -> updating n B L g' psi phi' -> (forall x, phi x = phi' x) ->
  (exists r, result n B L g psi r) /\ (exists r, result n B L g' psi r) /\
  forall r r', result n B L g psi r -> result n B L g' psi r' -> forall x, x < B * 2 ^ n -> r x = r' x.
Proof.
  intros U U' H. split; [exact (updating_exists _ _ _ _ _ _ U)|]. split; [exact (updating_exists _ _ _ _ _ _ U')|].
  intros r r' R R' x Hx. now rewrite (updating_result _ _ _ _ _ _ _ _ U R Hx), (updating_result _ _ _ _ _ _ _ _ U' R' Hx).
Qed.
Lemma control_order vf k k' g g' n B L psi : call_typed k -> call_typed k' -> make vf k = Ok g -> make vf k' = Ok g' ->
  call_targets k' = call_targets k -> call_matrix k' = call_matrix k -> Permutation (call_controls k) (call_controls k') ->
  Forall (fun q => q < n) (call_operands k) -> sizes_ok n B L ->
  (exists r, result n B L g psi r) /\ (exists r, result n B L g' psi r) /\
  forall r r', result n B L g psi r -> result n B L g' psi r' -> forall x, x < B * 2 ^ n -> r x = r' x.
Proof.
  intros T T' E E' Et Em P HF Hs.
  assert (HF' : Forall (fun q => q < n) (call_operands k')).
  { unfold call_operands in *. rewrite Et. refine (Permutation_Forall _ HF).
    apply Permutation_app_head. now apply Permutation_map. }
  refine (same_result _ _ _ _ _ _ _ _ (updating_call vf k g n B L psi T E HF Hs) (updating_call vf k' g' n B L psi T' E' HF' Hs) _).
  intros x. rewrite Et, Em. unfold apply_mat. now rewrite (ctrl_perm _ _ x P).
Qed.
Lemma swap_either_way vf a b cs vs g g' n B L psi : make vf (CallSwap a b cs vs) = Ok g -> make vf (CallSwap b a cs vs) = Ok g' ->
  Forall (fun q => q < n) (a :: b :: cs) -> sizes_ok n B L ->
  (exists r, result n B L g psi r) /\ (exists r, result n B L g' psi r) /\
  forall r r', result n B L g psi r -> result n B L g' psi r' -> forall x, x < B * 2 ^ n -> r x = r' x.
Proof.
  intros E E' HF Hs.
  assert (F : Forall (fun q => q < n) (call_operands (CallSwap a b cs vs))) by exact (operands_from [a; b] cs vs n HF).
  assert (F' : Forall (fun q => q < n) (call_operands (CallSwap b a cs vs))).
  { apply (operands_from [b; a] cs vs n). inversion HF as [|? ? H1 H2]; subst. inversion H2; subst. now repeat constructor. }
  pose proof (proj1 (call_wf_ops vf (CallSwap a b cs vs) g n I E F)) as ND. cbn in ND. inversion ND as [|? ? K]; subst.
  assert (D : a <> b) by (intros ->; apply K; now left).
  refine (same_result _ _ _ _ _ _ _ _ (updating_call vf (CallSwap a b cs vs) g n B L psi I E F Hs) (updating_call vf (CallSwap b a cs vs) g' n B L psi I E' F' Hs) _).
  intros x. cbn [call_targets call_controls call_matrix]. rewrite !apply_swap by congruence. destruct (ctrl_ok _ x); [|reflexivity]. f_equal.
  apply N.bits_inj. intros i. unfold exchange. rewrite !set_bit_tb. destruct (N.eqb_spec i a), (N.eqb_spec i b); subst; congruence.
Qed.
