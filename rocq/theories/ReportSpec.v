(** Which answers about its qubits are right for a gate. *)
From Verif Require Export Reports CircuitSpec.
From Coq Require Import Permutation Sorted.

(** The answers for a gate with targets [ts] and controls [cs], each control with the value it has to have: every list is
    in increasing order, the two control lists belong together position by position. *)
Definition tells (r : report) (ts : list N) (cs : list (N * bool)) : Prop :=
  exists t c v, r_targets r = Ok t /\ r_controls r = Ok c /\ r_values r = Ok v /\
    StronglySorted N.lt t /\ Permutation t ts /\
    StronglySorted N.lt c /\ Permutation (combine c v) (map (fun p => (fst p, N.b2n (snd p))) cs) /\ length c = length v /\
    StronglySorted N.lt (r_operands r) /\ Permutation (r_operands r) (t ++ c).
(** Index [y] differs from [x] in the listed qubits only. *)
Definition differs_only (qs : list N) (x y : N) : Prop := forall q, ~ In q qs -> N.testbit y q = N.testbit x q.
