(** Random::permutation: C44. *)
From Verif Require Import Random.
From Verif Require RandomProofs.
Local Open Scope nat_scope.

(** C44: whatever the engine produces, each of 0..n-1 is returned exactly once. *)
Theorem C44_permutation : forall n mt, Permutation (permutation n mt) (seq 0 n).
Proof. exact RandomProofs.permutation_perm. Qed.
Print Assumptions C44_permutation.
(** Every permutation of up to 2^32 - 1 elements can be produced. *)
Theorem C44_every_permutation_partial : forall n t, (N.of_nat n <= 4294967295)%N -> Permutation t (seq 0 n) ->
  exists mt, engine_ok mt /\ permutation n mt = t.
Proof. exact RandomProofs.permutation_reaches. Qed.
Print Assumptions C44_every_permutation_partial.
Example C44_example : permutation 3 (fun k => match k with O => 0 | _ => 1 end)%N = [2; 1; 0] /\ Permutation [2; 0; 1] (seq 0 3).
Proof. split; [exact RandomProofs.reverse_three|]. apply (Permutation_cons_app [0; 1] []). apply Permutation_refl. Qed.
(** From 2^32 elements on this is false: the identity is never produced. *)
Theorem C44_every_permutation_refuted : exists n t, Permutation t (seq 0 n) /\ forall mt, permutation n mt <> t.
Proof.
  exists (N.to_nat 4294967296), (seq 0 (N.to_nat 4294967296)). split; [apply Permutation_refl|].
  intros mt. apply RandomProofs.permutation_identity_missed. rewrite N2Nat.id. apply N.le_refl.
Qed.
Print Assumptions C44_every_permutation_refuted.
