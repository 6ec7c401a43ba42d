(** C81: identities between gates.  Gates made on the same target with the same controls and control values, applied in
    order, do the same as their replacement; [alike] lists the identities. *)
From Verif Require Import IdentitySpec.
From Verif Require IdentityProofs3 IdentityProofs4 IdentityProofs5 IdentityProofs6 IdentityProofs7 IdentityProofs8 IdentityProofs11 IdentityProofs12 IdentityProofs13.
Require Import Permutation.
Local Open Scope N_scope.

Theorem C81_identities : forall l l' vf t cs vs gs gs' n B L psi, alike l l' ->
  Forall2 (fun k g => make vf (Call1 k t cs vs) = Ok g) l gs -> Forall2 (fun k g => make vf (Call1 k t cs vs) = Ok g) l' gs' ->
  Forall (fun q => q < n) (t :: cs) -> sizes_ok n B L ->
  (exists r, in_turn n B L gs psi r) /\ (exists r, in_turn n B L gs' psi r) /\
  forall r r', in_turn n B L gs psi r -> in_turn n B L gs' psi r' -> forall a, a < B * 2 ^ n -> r a = r' a.
Proof. exact IdentityProofs2.identities. Qed.
Print Assumptions C81_identities.
(** a rotation by 1 and one by 2, with a control on 0, against one by 3 *)
Example C81_example : alike [GRX 1; GRX 2] [GRX (1 + 2)] /\
  (exists g1 g2, Forall2 (fun k g => make false (Call1 k 1 [0; 2] [0; 1]) = Ok g) [GRX 1; GRX 2] [g1; g2]) /\
  (exists g, Forall2 (fun k g => make false (Call1 k 1 [0; 2] [0; 1]) = Ok g) [GRX (1 + 2)] [g]) /\
  Forall (fun q => q < 3) [1; 0; 2] /\ sizes_ok 3 2 0.
Proof.
  split; [constructor|]. split; [eexists; eexists; repeat constructor; vm_compute; reflexivity|]. split; [eexists; repeat constructor; vm_compute; reflexivity|].
  split; [repeat constructor|]. repeat split; try (intros K; discriminate K). left. reflexivity.
Qed.

Theorem C81_global_phase : forall vf a b cs vs g1 g2 g3 n B L psi,
  make vf (CallGlobalPhase a cs vs) = Ok g1 -> make vf (CallGlobalPhase b cs vs) = Ok g2 -> make vf (CallGlobalPhase (a + b) cs vs) = Ok g3 ->
  Forall (fun q => q < n) cs -> sizes_ok n B L ->
  (exists r, in_turn n B L [g1; g2] psi r) /\ (exists r, in_turn n B L [g3] psi r) /\
  forall r r', in_turn n B L [g1; g2] psi r -> in_turn n B L [g3] psi r' -> forall x, x < B * 2 ^ n -> r x = r' x.
Proof. exact IdentityProofs3.phases_add. Qed.
Print Assumptions C81_global_phase.
(** also with a complex coefficient *)
Theorem C81_pauli_rotation : forall vf p a b cs vs g1 g2 g3 n B L psi, p_bf p < 2 ^ 64 -> p_pf p < 2 ^ 64 ->
  make vf (CallPauliRotation p a cs vs) = Ok g1 -> make vf (CallPauliRotation p b cs vs) = Ok g2 -> make vf (CallPauliRotation p (a + b) cs vs) = Ok g3 ->
  Forall (fun q => q < n) (bits (N.lor (p_bf p) (p_pf p)) ++ cs) -> sizes_ok n B L ->
  (exists r, in_turn n B L [g1; g2] psi r) /\ (exists r, in_turn n B L [g3] psi r) /\
  forall r r', in_turn n B L [g1; g2] psi r -> in_turn n B L [g3] psi r' -> forall x, x < B * 2 ^ n -> r x = r' x.
Proof. exact IdentityProofs3.pauli_turns_add. Qed.
Print Assumptions C81_pauli_rotation.
Theorem C81_no_rotation : forall vf p cs vs g n B L psi, p_bf p < 2 ^ 64 -> p_pf p < 2 ^ 64 -> make vf (CallPauliRotation p 0 cs vs) = Ok g ->
  Forall (fun q => q < n) (bits (N.lor (p_bf p) (p_pf p)) ++ cs) -> sizes_ok n B L -> updating n B L g psi psi.
Proof. exact IdentityProofs3.pauli_turn_none. Qed.
Print Assumptions C81_no_rotation.
Example C81_pauli_example : let p := Pauli Ci 12 5 in
  (exists g, make false (CallPauliRotation p 1 [1] [0]) = Ok g) /\ (exists g, make false (CallPauliRotation p (1 + 2) [1] [0]) = Ok g) /\
  Forall (fun q => q < 4) (bits (N.lor (p_bf p) (p_pf p)) ++ [1]).
Proof. split; [eexists; vm_compute; reflexivity|]. split; [eexists; vm_compute; reflexivity|]. vm_compute. repeat constructor. Qed.

(** swap, Ecr, CX, CZ, CCX, Pauli and matrix gates that are their own inverse: applied twice they do nothing *)
Theorem C81_own_inverse : forall vf k g n B L psi, own_inverse k -> make vf k = Ok g -> Forall (fun q => q < n) (call_operands k) -> sizes_ok n B L ->
  (exists r, in_turn n B L [g; g] psi r) /\ forall r, in_turn n B L [g; g] psi r -> forall a, a < B * 2 ^ n -> r a = psi a.
Proof. exact IdentityProofs4.twice_nothing. Qed.
Print Assumptions C81_own_inverse.
Example C81_own_inverse_example : own_inverse (CallEcr 2 0 [1; 3] [0; 1]) /\ (exists g, make false (CallEcr 2 0 [1; 3] [0; 1]) = Ok g) /\
  Forall (fun q => q < 4) (call_operands (CallEcr 2 0 [1; 3] [0; 1])) /\ sizes_ok 4 2 0.
Proof.
  split; [constructor|]. split; [eexists; vm_compute; reflexivity|]. split; [vm_compute; repeat constructor|].
  repeat split; try (intros K; discriminate K). left. reflexivity.
Qed.

(** CZ does not tell its control from its target *)
Theorem C81_cz : forall vf a b g g' n B L psi, make vf (CallCZ a b) = Ok g -> make vf (CallCZ b a) = Ok g' -> a < n -> b < n -> sizes_ok n B L ->
  (exists r, result n B L g psi r) /\ (exists r, result n B L g' psi r) /\
  forall r r', result n B L g psi r -> result n B L g' psi r' -> forall x, x < B * 2 ^ n -> r x = r' x.
Proof. exact IdentityProofs5.cz_either_way. Qed.
Print Assumptions C81_cz.
(** CX is CZ between two Hadamard gates on the target *)
Theorem C81_cx : forall vf c t h z g n B L psi, make vf (Call1 GH t [] []) = Ok h -> make vf (CallCZ c t) = Ok z -> make vf (CallCX c t) = Ok g ->
  c < n -> t < n -> sizes_ok n B L ->
  (exists r, in_turn n B L [h; z; h] psi r) /\ (exists r, in_turn n B L [g] psi r) /\
  forall r r', in_turn n B L [h; z; h] psi r -> in_turn n B L [g] psi r' -> forall x, x < B * 2 ^ n -> r x = r' x.
Proof. exact IdentityProofs5.cx_from_cz. Qed.
Print Assumptions C81_cx.
Example C81_cx_example : (exists h, make false (Call1 GH 0 [] []) = Ok h) /\ (exists z, make false (CallCZ 2 0) = Ok z) /\
  (exists z, make false (CallCZ 0 2) = Ok z) /\ (exists g, make false (CallCX 2 0) = Ok g) /\ sizes_ok 3 2 0.
Proof.
  repeat (split; [eexists; vm_compute; reflexivity|]). repeat split; try (intros K; discriminate K). left. reflexivity.
Qed.

(** three CX, the middle one the other way round, are a Swap *)
Theorem C81_swap : forall vf a b g1 g2 g n B L psi, make vf (CallCX a b) = Ok g1 -> make vf (CallCX b a) = Ok g2 -> make vf (CallSwap a b [] []) = Ok g ->
  a < n -> b < n -> sizes_ok n B L ->
  (exists r, in_turn n B L [g1; g2; g1] psi r) /\ (exists r, in_turn n B L [g] psi r) /\
  forall r r', in_turn n B L [g1; g2; g1] psi r -> in_turn n B L [g] psi r' -> forall x, x < B * 2 ^ n -> r x = r' x.
Proof. exact IdentityProofs6.swap_from_cx. Qed.
Print Assumptions C81_swap.
Example C81_swap_example : (exists g, make false (CallCX 2 0) = Ok g) /\ (exists g, make false (CallCX 0 2) = Ok g) /\ (exists g, make false (CallSwap 2 0 [] []) = Ok g) /\ sizes_ok 3 2 0.
Proof.
  repeat (split; [eexists; vm_compute; reflexivity|]). repeat split; try (intros K; discriminate K). left. reflexivity.
Qed.

(** any gate between two X on one of its controls is the gate with the other value for that control *)
Theorem C81_control_value : forall vf k k' c v l1 l2 g g' gx n B L psi, call_typed k -> call_typed k' -> make vf k = Ok g -> make vf k' = Ok g' ->
  call_targets k' = call_targets k -> call_matrix k' = call_matrix k -> call_controls k = l1 ++ (c, v) :: l2 -> call_controls k' = l1 ++ (c, negb v) :: l2 ->
  make vf (Call1 GX c [] []) = Ok gx -> Forall (fun q => q < n) (call_operands k) -> sizes_ok n B L ->
  (exists r, in_turn n B L [gx; g; gx] psi r) /\ (exists r, in_turn n B L [g'] psi r) /\
  forall r r', in_turn n B L [gx; g; gx] psi r -> in_turn n B L [g'] psi r' -> forall x, x < B * 2 ^ n -> r x = r' x.
Proof. exact IdentityProofs7.control_value. Qed.
Print Assumptions C81_control_value.
(** a Swap controlled by 1 and 4, the value for 4 changed *)
Example C81_control_value_example : let k := CallSwap 2 0 [1; 4] [0; 1] in let k' := CallSwap 2 0 [1; 4] [0; 0] in
  call_typed k /\ call_typed k' /\ (exists g, make false k = Ok g) /\ (exists g, make false k' = Ok g) /\ (exists g, make false (Call1 GX 4 [] []) = Ok g) /\
  call_targets k' = call_targets k /\ call_matrix k' = call_matrix k /\
  call_controls k = [(1, false)] ++ (4, true) :: [] /\ call_controls k' = [(1, false)] ++ (4, negb true) :: [] /\
  Forall (fun q => q < 5) (call_operands k) /\ sizes_ok 5 2 0.
Proof.
  cbv zeta. split; [exact I|]. split; [exact I|]. do 3 (split; [eexists; vm_compute; reflexivity|]). do 4 (split; [reflexivity|]).
  split; [vm_compute; repeat constructor|]. repeat split; try (intros K; discriminate K). left. reflexivity.
Qed.

(** the order in which controls and their values are given does not matter *)
Theorem C81_control_order : forall vf k k' g g' n B L psi, call_typed k -> call_typed k' -> make vf k = Ok g -> make vf k' = Ok g' ->
  call_targets k' = call_targets k -> call_matrix k' = call_matrix k -> Permutation (call_controls k) (call_controls k') ->
  Forall (fun q => q < n) (call_operands k) -> sizes_ok n B L ->
  (exists r, result n B L g psi r) /\ (exists r, result n B L g' psi r) /\
  forall r r', result n B L g psi r -> result n B L g' psi r' -> forall x, x < B * 2 ^ n -> r x = r' x.
Proof. exact IdentityProofs8.control_order. Qed.
Print Assumptions C81_control_order.
(** nor does the order of the targets of a Swap *)
Theorem C81_swap_order : forall vf a b cs vs g g' n B L psi, make vf (CallSwap a b cs vs) = Ok g -> make vf (CallSwap b a cs vs) = Ok g' ->
  Forall (fun q => q < n) (a :: b :: cs) -> sizes_ok n B L ->
  (exists r, result n B L g psi r) /\ (exists r, result n B L g' psi r) /\
  forall r r', result n B L g psi r -> result n B L g' psi r' -> forall x, x < B * 2 ^ n -> r x = r' x.
Proof. exact IdentityProofs8.swap_either_way. Qed.
Print Assumptions C81_swap_order.
Example C81_control_order_example : let k := Call1 GH 3 [2; 0] [0; 1] in let k' := Call1 GH 3 [0; 2] [1; 0] in
  (exists g, make false k = Ok g) /\ (exists g, make false k' = Ok g) /\ call_targets k' = call_targets k /\ call_matrix k' = call_matrix k /\
  Permutation (call_controls k) (call_controls k') /\ Forall (fun q => q < 4) (call_operands k) /\
  (exists g, make false (CallSwap 3 1 [2] [0]) = Ok g) /\ (exists g, make false (CallSwap 1 3 [2] [0]) = Ok g) /\ sizes_ok 4 2 0.
Proof.
  cbv zeta. do 2 (split; [eexists; vm_compute; reflexivity|]). do 2 (split; [reflexivity|]). split; [apply perm_swap|].
  split; [vm_compute; repeat constructor|]. do 2 (split; [eexists; vm_compute; reflexivity|]). repeat split; try (intros K; discriminate K). left. reflexivity.
Qed.

(** the identities also hold in the middle of a longer sequence of gates: replacing one side by the other there leaves the
    final state unchanged *)
Theorem C81_anywhere : forall l l' vf t cs vs gs gs' pre post n B L psi, alike l l' ->
  Forall2 (fun k g => make vf (Call1 k t cs vs) = Ok g) l gs -> Forall2 (fun k g => make vf (Call1 k t cs vs) = Ok g) l' gs' ->
  Forall (fun q => q < n) (t :: cs) -> sizes_ok n B L ->
  Forall (fun g => exists k, call_typed k /\ make vf k = Ok g /\ Forall (fun q => q < n) (call_operands k)) (pre ++ post) ->
  (exists r, in_turn n B L (pre ++ gs ++ post) psi r) /\ (exists r, in_turn n B L (pre ++ gs' ++ post) psi r) /\
  forall r r', in_turn n B L (pre ++ gs ++ post) psi r -> in_turn n B L (pre ++ gs' ++ post) psi r' -> forall a, a < B * 2 ^ n -> r a = r' a.
Proof. exact IdentityProofs11.identities_within. Qed.
Print Assumptions C81_anywhere.
(** T T against S on qubit 1 controlled by 0, between a Swap and an H *)
Example C81_anywhere_example : exists sw h t s, make false (CallSwap 2 0 [1] [0]) = Ok sw /\ make false (Call1 GH 2 [] []) = Ok h /\
  alike [GT; GT] [GS] /\ Forall2 (fun k g => make false (Call1 k 1 [0] [1]) = Ok g) [GT; GT] [t; t] /\
  Forall2 (fun k g => make false (Call1 k 1 [0] [1]) = Ok g) [GS] [s] /\ Forall (fun q => q < 3) [1; 0] /\ sizes_ok 3 2 0 /\
  Forall (fun g => exists k, call_typed k /\ make false k = Ok g /\ Forall (fun q => q < 3) (call_operands k)) ([sw] ++ [h]).
Proof.
  do 4 eexists. split; [vm_compute; reflexivity|]. split; [vm_compute; reflexivity|]. split; [constructor|].
  split; [repeat constructor; vm_compute; reflexivity|]. split; [repeat constructor; vm_compute; reflexivity|]. split; [repeat constructor|].
  split; [repeat split; try (intros K; discriminate K); left; reflexivity|].
  constructor; [exists (CallSwap 2 0 [1] [0])|constructor; [exists (Call1 GH 2 [] [])|constructor]]; (split; [exact I|]; split; [vm_compute; reflexivity|vm_compute; repeat constructor]).
Qed.

(** so does every other identity above: sequences that do the same to every state can replace each other anywhere *)
Theorem C81_context : forall vf gs gs' pre post n B L psi, sizes_ok n B L ->
  Forall (fun g => exists k, call_typed k /\ make vf k = Ok g /\ Forall (fun q => q < n) (call_operands k)) (pre ++ gs ++ gs' ++ post) ->
  (forall phi r r', in_turn n B L gs phi r -> in_turn n B L gs' phi r' -> forall a, a < B * 2 ^ n -> r a = r' a) ->
  (exists r, in_turn n B L (pre ++ gs ++ post) psi r) /\ (exists r, in_turn n B L (pre ++ gs' ++ post) psi r) /\
  forall r r', in_turn n B L (pre ++ gs ++ post) psi r -> in_turn n B L (pre ++ gs' ++ post) psi r' -> forall a, a < B * 2 ^ n -> r a = r' a.
Proof. exact IdentityProofs12.context. Qed.
Print Assumptions C81_context.
(** three CX against a Swap, between an H and a controlled T *)
Example C81_context_example : exists g1 g2 g h t, make false (CallCX 2 0) = Ok g1 /\ make false (CallCX 0 2) = Ok g2 /\
  make false (CallSwap 2 0 [] []) = Ok g /\ sizes_ok 3 2 0 /\
  Forall (fun g => exists k, call_typed k /\ make false k = Ok g /\ Forall (fun q => q < 3) (call_operands k)) ([h] ++ [g1; g2; g1] ++ [g] ++ [t]) /\
  forall phi r r', in_turn 3 2 0 [g1; g2; g1] phi r -> in_turn 3 2 0 [g] phi r' -> forall a, a < 2 * 2 ^ 3 -> r a = r' a.
Proof.
  assert (Hs : sizes_ok 3 2 0) by (repeat split; try (intros K; discriminate K); left; reflexivity).
  assert (E1 : exists g, make false (CallCX 2 0) = Ok g) by (eexists; vm_compute; reflexivity).
  assert (E2 : exists g, make false (CallCX 0 2) = Ok g) by (eexists; vm_compute; reflexivity).
  assert (E3 : exists g, make false (CallSwap 2 0 [] []) = Ok g) by (eexists; vm_compute; reflexivity).
  assert (E4 : exists g, make false (Call1 GH 1 [] []) = Ok g) by (eexists; vm_compute; reflexivity).
  assert (E5 : exists g, make false (Call1 GT 0 [1] [0]) = Ok g) by (eexists; vm_compute; reflexivity).
  destruct E1 as (g1 & E1), E2 as (g2 & E2), E3 as (g & E3), E4 as (h & E4), E5 as (t & E5).
  exists g1, g2, g, h, t. do 4 (split; [assumption|]). split.
  - assert (K : forall k g, call_typed k -> make false k = Ok g -> Forall (fun q => q < 3) (call_operands k) ->
      exists k, call_typed k /\ make false k = Ok g /\ Forall (fun q => q < 3) (call_operands k)) by (intros k x; exists k; auto).
    cbn [app]. constructor; [|constructor; [|constructor; [|constructor; [|constructor; [|constructor; [|constructor]]]]]];
      (eapply K; [|eassumption|vm_compute; repeat constructor]; exact I).
  - intros phi. exact (proj2 (proj2 (C81_swap false 2 0 g1 g2 g 3 2 0 phi E1 E2 E3 eq_refl eq_refl Hs))).
Qed.

(** gates whose matrices are diagonal (Z, S, T, RZ, U1, CZ, ...) can be exchanged, whatever qubits they share *)
Theorem C81_diagonal : forall vf k k' g g' n B L psi, call_typed k -> call_typed k' -> make vf k = Ok g -> make vf k' = Ok g' ->
  (forall i j, i < 2 ^ N.of_nat (length (call_targets k)) -> j < 2 ^ N.of_nat (length (call_targets k)) -> i <> j -> call_matrix k i j = C0) ->
  (forall i j, i < 2 ^ N.of_nat (length (call_targets k')) -> j < 2 ^ N.of_nat (length (call_targets k')) -> i <> j -> call_matrix k' i j = C0) ->
  Forall (fun q => q < n) (call_operands k ++ call_operands k') -> sizes_ok n B L ->
  (exists r, in_turn n B L [g; g'] psi r) /\ (exists r, in_turn n B L [g'; g] psi r) /\
  forall r r', in_turn n B L [g; g'] psi r -> in_turn n B L [g'; g] psi r' -> forall x, x < B * 2 ^ n -> r x = r' x.
Proof. exact IdentityProofs13.diagonal_swap. Qed.
Print Assumptions C81_diagonal.
(** CZ and a T whose control is the target of the CZ *)
Example C81_diagonal_example : let k := CallCZ 0 2 in let k' := Call1 GT 0 [2; 1] [0; 1] in
  call_typed k /\ call_typed k' /\ (exists g, make false k = Ok g) /\ (exists g, make false k' = Ok g) /\
  (forall i j, i < 2 ^ N.of_nat (length (call_targets k)) -> j < 2 ^ N.of_nat (length (call_targets k)) -> i <> j -> call_matrix k i j = C0) /\
  (forall i j, i < 2 ^ N.of_nat (length (call_targets k')) -> j < 2 ^ N.of_nat (length (call_targets k')) -> i <> j -> call_matrix k' i j = C0) /\
  Forall (fun q => q < 3) (call_operands k ++ call_operands k') /\ sizes_ok 3 2 0.
Proof.
  assert (K : forall i, i < 2 -> i = 0 \/ i = 1) by (intros [|[p|p|]] H; auto; destruct p; discriminate H).
  cbv zeta. do 2 (split; [exact I|]). do 2 (split; [eexists; vm_compute; reflexivity|]).
  do 2 (split; [intros i j Hi Hj Hn; apply K in Hi, Hj; destruct Hi as [-> | ->], Hj as [-> | ->]; try (contradiction Hn; reflexivity); reflexivity|]).
  split; [vm_compute; repeat constructor|]. repeat split; try (intros X; discriminate X). left. reflexivity.
Qed.
