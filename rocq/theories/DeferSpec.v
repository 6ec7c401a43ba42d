(** What "controlling a gate by the qubit instead of by the bit it was measured into" means. *)
From Verif Require Export OrderSpec ChannelSpec.
From Coq Require Import Permutation.

(** The factory call k' asks for the same gate as k with one control more: qubit q at value v. *)
Definition one_more_control (q : N) (v : bool) (k k' : call) : Prop :=
  ~ In q (call_operands k) /\ call_targets k' = call_targets k /\ Permutation (call_controls k') ((q, v) :: call_controls k) /\
  (forall i j, call_matrix k' i j = call_matrix k i j).
Inductive controlled_item (q : N) (v : bool) : sitem -> sitem -> Prop :=
| controlled_gate k k' : one_more_control q v k k' -> controlled_item q v (SFixed (act_of k)) (SFixed (act_of k'))
| controlled_param key k k' : (forall a, one_more_control q v (pcall_at k a) (pcall_at k' a)) ->
    controlled_item q v (SKeyed key (fun a => act_of (pcall_at k a))) (SKeyed key (fun a => act_of (pcall_at k' a))).
(** Measure q into the bit, then a gate if the bit shows v: instead, the gate controlled by q, then the measurement; at
    any place of the circuit and any number of times. *)
Inductive deferred : program -> program -> Prop :=
| deferred_same p : deferred p p
| deferred_gate p1 q bit reset v i i' p2 : controlled_item q v i i' ->
    deferred (p1 ++ (SFixed (Meas q bit reset), None) :: (i, Some (bit_cond bit v)) :: p2)
             (p1 ++ (i', None) :: (SFixed (Meas q bit reset), None) :: p2)
| deferred_then p p' p'' : deferred p p' -> deferred p' p'' -> deferred p p''.
