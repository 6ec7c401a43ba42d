From Verif Require Export IdentityProofs11.
From Verif Require Import Spec.
Local Open Scope N_scope.

Lemma context vf gs gs' pre post n B L psi : sizes_ok n B L ->
  Forall (fun g => exists k, call_typed k /\ make vf k = Ok g /\ Forall (fun q => q < n) (call_operands k)) (pre ++ gs ++ gs' ++ post) ->
  (forall phi r r', in_turn n B L gs phi r -> in_turn n B L gs' phi r' -> forall a, a < B * 2 ^ n -> r a = r' a) ->
  (exists r, in_turn n B L (pre ++ gs ++ post) psi r) /\ (exists r, in_turn n B L (pre ++ gs' ++ post) psi r) /\
  forall r r', in_turn n B L (pre ++ gs ++ post) psi r -> in_turn n B L (pre ++ gs' ++ post) psi r' -> forall a, a < B * 2 ^ n -> r a = r' a.
Proof.
  intros Hs HF H. apply Forall_app in HF. destruct HF as [F1 HF]. apply Forall_app in HF. destruct HF as [F2 HF]. apply Forall_app in HF. destruct HF as [F3 F4].
  apply (replace_within vf n B L Hs); try assumption. intros phi. split; [|apply H]. now apply (turn_there vf n B L Hs).
Qed.
