(** Gates applied in turn to a density matrix. *)
From Verif Require Export IdentitySpec DensitySpec.
Local Open Scope N_scope.

Inductive dm_in_turn (n : N) : list egate -> dmw -> dmw -> Prop :=
| dm_turn_none w : dm_in_turn n [] w w
| dm_turn_next g gs w w1 w2 : dm_update n g w (HDone tt w1) -> dm_in_turn n gs w1 w2 -> dm_in_turn n (g :: gs) w w2.
