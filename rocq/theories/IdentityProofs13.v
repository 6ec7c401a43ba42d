From Verif Require Export IdentityProofs12.
From Verif Require Import Spec GatesProofs GatesProofs2 GatesProofs5 GatesProofs8 GatesProofs9.
Require Import Lia.
Local Open Scope N_scope.

Definition off_diagonal_zero (ts : list N) (M : matrix) : Prop := forall i j, i < 2 ^ N.of_nat (length ts) -> j < 2 ^ N.of_nat (length ts) -> i <> j -> M i j = C0.
Lemma diagonal_applied ts cs M psi x : NoDup ts -> off_diagonal_zero ts M ->
  apply_mat ts cs M psi x = ((if ctrl_ok cs x then M (gather ts x) (gather ts x) else C1) * psi x)%C.
Proof.
  intros Hd H. unfold apply_mat. destruct (ctrl_ok cs x); [|ring].
  rewrite (Csum_single _ _ (gather ts x)).
  - now rewrite scatter_gather.
  - apply gather_lt.
  - intros i Hi Hn. rewrite H; [ring|apply gather_lt|assumption|congruence].
Qed.
Lemma diagonal_swap vf k k' g g' n B L psi : call_typed k -> call_typed k' -> make vf k = Ok g -> make vf k' = Ok g' ->
  off_diagonal_zero (call_targets k) (call_matrix k) -> off_diagonal_zero (call_targets k') (call_matrix k') ->
  Forall (fun q => q < n) (call_operands k ++ call_operands k') -> sizes_ok n B L ->
  (exists r, in_turn n B L [g; g'] psi r) /\ (exists r, in_turn n B L [g'; g] psi r) /\
  forall r r', in_turn n B L [g; g'] psi r -> in_turn n B L [g'; g] psi r' -> forall x, x < B * 2 ^ n -> r x = r' x.
Proof.
  intros T T' E E' D D' HF Hs. apply Forall_app in HF. destruct HF as [F F'].
  assert (X : fits_here vf n g) by (exists k; auto). assert (X' : fits_here vf n g') by (exists k'; auto).
  split; [apply (turn_there vf n B L Hs); auto|]. split; [apply (turn_there vf n B L Hs); auto|].
  pose proof (fun p => updating_call vf k g n B L p T E F Hs) as U. pose proof (fun p => updating_call vf k' g' n B L p T' E' F' Hs) as U'.
  pose proof (call_targets_NoDup vf k g T E) as N1. pose proof (call_targets_NoDup vf k' g' T' E') as N2.
  intros r r' R R' x Hx.
  inversion R as [|? ? ? p1 ? S1 R1]; subst. inversion R1 as [|? ? ? p2 ? S2 R2]; subst. inversion R2; subst.
  inversion R' as [|? ? ? q1 ? S3 R3]; subst. inversion R3 as [|? ? ? q2 ? S4 R4]; subst. inversion R4; subst.
  rewrite (updating_result _ _ _ _ _ _ _ _ (U' p1) S2 Hx), (updating_result _ _ _ _ _ _ _ _ (U q1) S4 Hx), !diagonal_applied by assumption.
  rewrite (updating_result _ _ _ _ _ _ _ _ (U psi) S1 Hx), (updating_result _ _ _ _ _ _ _ _ (U' psi) S3 Hx), !diagonal_applied by assumption. ring.
Qed.
