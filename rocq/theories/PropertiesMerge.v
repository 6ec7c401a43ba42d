(** Merging gates: C23 and C24. *)
From Coq Require Import Sorted.
From Verif Require Import GateSpec Merge MergeSpec.
From Verif Require MergeProofs3 MergeProofs6.

(** C23: [ts] and the controls of mask [c] with values [cv] are moved into the sorted operand list [ops]. *)
Theorem C23_expansion : forall (from : dmat) (ts : list N) (c cv : N) (ops : list N),
  StronglySorted N.lt ops -> (length ops < 64)%nat -> NoDup ts -> incl ts ops -> c < 2 ^ 64 -> incl (bits c) ops ->
  (forall q, In q ts -> N.testbit c q = false) -> N.land cv c = cv ->
  m_rows from = 2 ^ N.of_nat (length ts) -> m_cols from = 2 ^ N.of_nat (length ts) ->
  exists E, get_expanded_matrix from ts c cv ops = Ok E /\
    m_rows E = 2 ^ N.of_nat (length ops) /\ m_cols E = 2 ^ N.of_nat (length ops) /\
    forall psi x, apply_mat ops [] (m_at E) psi x = apply_mat ts (map (fun q => (q, N.testbit cv q)) (bits c)) (m_at from) psi x.
Proof. exact MergeProofs3.expanded_acts. Qed.
Print Assumptions C23_expansion.
(** targets 5 and 1 in this order, controls 0 (active at 0) and 9 (active at 1), into 0, 1, 5, 7, 9 *)
Example C23_example : let ts := [5; 1] in let c := 513 in let cv := 512 in let ops := [0; 1; 5; 7; 9] in
  StronglySorted N.lt ops /\ (length ops < 64)%nat /\ NoDup ts /\ incl ts ops /\ c < 2 ^ 64 /\ bits c = [0; 9] /\ incl (bits c) ops /\
  (forall q, In q ts -> N.testbit c q = false) /\ N.land cv c = cv.
Proof. exact MergeProofs6.expansion_example. Qed.

(** C24: whatever gates a program can hold, merging either throws (a visible Permutation gate) or gives a gate
    with the effect of g1 then g2, up to the phase it returns.  A leftover phase below 1e-12 of RZ gates is
    dropped by the code: [delta]. *)
Theorem C24_merge : forall vf g1 g2 n B L, made g1 -> made g2 ->
  operands_below n (snd g1) -> operands_below n (snd g2) -> sizes_ok n B L ->
  is_permutation g1 = false -> is_permutation g2 = false ->
  exists g (phase delta : R), merge_gate vf g1 g2 = Ok (g, phase) /\ made g /\ operands_below n (snd g) /\
    (Rabs delta < / 10 ^ 12)%R /\ (is_rz g1 = false -> is_rz g2 = false -> delta = 0%R) /\
    forall psi, exists psi1 psi2 psi',
      updating n B L (snd g1) psi psi1 /\ updating n B L (snd g2) psi1 psi2 /\ updating n B L (snd g) psi psi' /\
      forall i, i < B * 2 ^ n -> psi2 i = (Cexpi phase * (if active (snd g1) i then Cexpi delta else C1) * psi' i)%C.
Proof. exact MergeProofs6.merge_gate_correct. Qed.
Print Assumptions C24_merge.
Theorem C24_permutation_throws : forall vf g1 g2,
  is_permutation g1 = true \/ is_permutation g2 = true -> merge_gate vf g1 g2 = Throw.
Proof. exact MergeProofs6.merge_throws. Qed.
Print Assumptions C24_permutation_throws.
(** X then Y on qubit 3; an inverse of S (type unknown) then a controlled swap *)
Example C24_example :
  (let x := EStd GX (GBase 8 0 0) in let y := EStd GY (GBase 8 0 0) in
   made (true, x) /\ made (true, y) /\ operands_below 5 x /\
   merge_gate false (true, x) (true, y) = Ok ((true, EStd GZ (GBase 8 0 0)), - PI / 2)%R) /\
  (let s := EStd GSdag (GBase 8 0 0) in let w := ESwap (GBase 17 8 0) in
   made (false, s) /\ made (true, w) /\ operands_below 5 s /\ operands_below 5 w /\
   exists M, merge_gate false (false, s) (true, w) = Ok ((true, EDense (GBase 25 0 0) M false), 0%R)).
Proof. exact MergeProofs6.merge_example. Qed.
