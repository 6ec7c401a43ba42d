(** Rows of batches: views and copies of batched operators, single rows of batched states. *)
From Verif Require Import OperatorBatchedSpec GateSpec State StateSpec.
From Verif Require Import OperatorBatchedProofs4 StateProofs4.

Lemma view_ok ops : fits_vector ops ->
  (forall b o, nth_error ops b = Some o ->
     exists p, ob_view_operator_at (batch_of ops) (N.of_nat b) = Ok p /\ o_terms p = o_terms o /\ o_view p = true) /\
  (forall b, N.of_nat (length ops) <= b -> ob_view_operator_at (batch_of ops) b = Throw).
Proof.
  intros Hf. destruct (batch_holds ops Hf) as (Hs & Hg & Ht & _). rewrite map_length in Hs, Ht. split.
  - intros b o E. destruct (Hg b (o_terms o)) as (p & Hp & Hp'); [now apply map_nth_error|].
    clear Hg Ht. unfold ob_get_operator_at, ob_view_operator_at in *.
    destruct (_ <=? _); [discriminate|]. destruct (nth_error (ob_row _) (N.to_nat (N.of_nat b))) as [x|]; [|discriminate]. destruct (nth_error (ob_row _) _) as [y|]; [|discriminate].
    injection Hp as <-. eexists. split; [reflexivity|]. split; [exact Hp'|reflexivity].
  - intros b Hb. unfold ob_view_operator_at. rewrite Hs. apply N.leb_le in Hb. now rewrite Hb.
Qed.
Lemma copy_ok ops : fits_vector ops -> holds (ob_copy (batch_of ops)) (map o_terms ops).
Proof. exact (batch_holds ops). Qed.

Lemma row_ok B n b w :
  (b < B -> runs (b_get_state_vector_at B n b) w (fun o => exists psi, o = HDone psi w /\ forall i, i < 2 ^ n -> psi i = batch n b (w_amp w) i)) /\
  (B <= b -> throws (b_get_state_vector_at B n b) w).
Proof.
  split; intros H; unfold b_get_state_vector_at.
  - apply N.leb_gt in H. rewrite H. apply runs_get. eexists. split; [reflexivity|]. reflexivity.
  - apply N.leb_le in H. rewrite H. now apply runs_throw.
Qed.
Lemma default_batch_wrong : ob_batch_size ob_default = two64 - 1 /\ ob_get_operator_at ob_default 0 = UB /\
  (forall junk sched, ob_add ob_default ob_default junk sched = Some UB) /\ (forall junk sched, ob_mul ob_default ob_default junk sched = Some UB).
Proof. destruct default_wrong as [H1 H2]. repeat (split; [assumption|]). split; reflexivity. Qed.
Lemma sub_paulis_ok A ps q junk : fits_vector A -> length ps = length A -> returns_batch (ob_sub_paulis (batch_of A) (ps ++ [q]) junk) (each2 op_sub_pauli A ps).
Proof.
  intros HA Hl. unfold ob_sub_paulis. rewrite map_app. cbn [map].
  assert (E : each2 op_sub_pauli A ps = each2 op_add_pauli A (map (fun p => pauli_scale p (- C1)%C) ps)).
  { unfold each2, op_sub_pauli. clear. revert ps. induction A as [|a A IH]; intros [|p ps]; cbn [combine map]; [reflexivity..|]. now rewrite IH. }
  rewrite E. apply paulis_ok; [assumption|]. now rewrite map_length.
Qed.
