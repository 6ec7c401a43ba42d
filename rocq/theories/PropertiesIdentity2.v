(** C81, continued: the identities for density matrices. *)
From Verif Require Import IdentityDensitySpec.
From Verif Require IdentityProofs9 IdentityProofs10.
Local Open Scope N_scope.

Theorem C81_density : forall l l' vf t cs vs gs gs' n w, alike l l' ->
  Forall2 (fun k g => make vf (Call1 k t cs vs) = Ok g) l gs -> Forall2 (fun k g => make vf (Call1 k t cs vs) = Ok g) l' gs' ->
  Forall (fun q => q < n) (t :: cs) -> n < 32 ->
  (exists w', dm_in_turn n gs w w') /\ (exists w', dm_in_turn n gs' w w') /\
  forall w1 w2, dm_in_turn n gs w w1 -> dm_in_turn n gs' w w2 -> mat_eq (2 ^ n) (rho w1) (rho w2) /\ d_herm w1 = d_herm w2.
Proof. exact IdentityProofs9.density_identities. Qed.
Print Assumptions C81_density.
Example C81_density_example : alike [GH; GX; GH] [GZ] /\
  (exists g1 g2 g3, Forall2 (fun k g => make false (Call1 k 1 [0; 2] [0; 1]) = Ok g) [GH; GX; GH] [g1; g2; g3]) /\
  (exists g, Forall2 (fun k g => make false (Call1 k 1 [0; 2] [0; 1]) = Ok g) [GZ] [g]) /\ Forall (fun q => q < 3) [1; 0; 2].
Proof.
  split; [constructor|]. split; [do 3 eexists; repeat constructor; vm_compute; reflexivity|].
  split; [eexists; repeat constructor; vm_compute; reflexivity|]. repeat constructor.
Qed.

(** Swap, Ecr, CX, CZ and CCX applied twice leave a density matrix as it was *)
Theorem C81_density_own_inverse : forall vf k g n w, own_inverse k -> dm_supported k = true -> make vf k = Ok g -> Forall (fun q => q < n) (call_operands k) -> n < 32 ->
  (exists w', dm_in_turn n [g; g] w w') /\ forall w', dm_in_turn n [g; g] w w' -> mat_eq (2 ^ n) (rho w') (rho w) /\ d_herm w' = d_herm w.
Proof. exact IdentityProofs10.density_twice. Qed.
Print Assumptions C81_density_own_inverse.
Example C81_density_own_inverse_example : own_inverse (CallCCX 3 0 2) /\ dm_supported (CallCCX 3 0 2) = true /\
  (exists g, make false (CallCCX 3 0 2) = Ok g) /\ Forall (fun q => q < 4) (call_operands (CallCCX 3 0 2)).
Proof. split; [constructor|]. split; [reflexivity|]. split; [eexists; vm_compute; reflexivity|]. vm_compute. repeat constructor. Qed.
