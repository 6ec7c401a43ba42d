(** Sequences of one-target gates that do the same. *)
From Verif Require Export GateSpec.
Local Open Scope N_scope.

(** Applying the gates of a list in order can turn psi into phi. *)
Inductive in_turn (n B L : N) : list egate -> state -> state -> Prop :=
| turn_none psi : in_turn n B L [] psi psi
| turn_next g gs psi phi chi : result n B L g psi phi -> in_turn n B L gs phi chi -> in_turn n B L (g :: gs) psi chi.

(** The identities; the list is in the order of application. *)
Inductive alike : list std1 -> list std1 -> Prop :=
(* rotations by angles add up and a rotation by 0 does nothing *)
| alike_RX a b : alike [GRX a; GRX b] [GRX (a + b)]
| alike_RY a b : alike [GRY a; GRY b] [GRY (a + b)]
| alike_RZ a b : alike [GRZ a; GRZ b] [GRZ (a + b)]
| alike_U1 a b : alike [GU1 a; GU1 b] [GU1 (a + b)]
| alike_RX0 : alike [GRX 0] []
| alike_RY0 : alike [GRY 0] []
| alike_RZ0 : alike [GRZ 0] []
| alike_U10 : alike [GU1 0] []
(* roots *)
| alike_TT : alike [GT; GT] [GS]
| alike_TTdag : alike [GTdag; GTdag] [GSdag]
| alike_SS : alike [GS; GS] [GZ]
| alike_SSdag : alike [GSdag; GSdag] [GZ]
| alike_sqrtX : alike [GSqrtX; GSqrtX] [GX]
| alike_sqrtXdag : alike [GSqrtXdag; GSqrtXdag] [GX]
| alike_sqrtY : alike [GSqrtY; GSqrtY] [GY]
| alike_sqrtYdag : alike [GSqrtYdag; GSqrtYdag] [GY]
(* what is its own inverse, and projections *)
| alike_XX : alike [GX; GX] []
| alike_YY : alike [GY; GY] []
| alike_ZZ : alike [GZ; GZ] []
| alike_HH : alike [GH; GH] []
| alike_P0 : alike [GP0; GP0] [GP0]
| alike_P1 : alike [GP1; GP1] [GP1]
(* Hadamard exchanges X and Z, and the root of X and S *)
| alike_HXH : alike [GH; GX; GH] [GZ]
| alike_HZH : alike [GH; GZ; GH] [GX]
| alike_HSH : alike [GH; GS; GH] [GSqrtX]
| alike_HRZ a : alike [GH; GRZ a; GH] [GRX a]
| alike_HRX a : alike [GH; GRX a; GH] [GRZ a]
| alike_XRZ a : alike [GX; GRZ a; GX] [GRZ (- a)]
| alike_ZRX a : alike [GZ; GRX a; GZ] [GRX (- a)]
(* the general gates *)
| alike_U1Z : alike [GU1 PI] [GZ]
| alike_U1S : alike [GU1 (PI / 2)] [GS]
| alike_U1T : alike [GU1 (PI / 4)] [GT]
| alike_U3U1 l : alike [GU3 0 0 l] [GU1 l]
| alike_U3U2 f l : alike [GU3 (PI / 2) f l] [GU2 f l]
| alike_U3RX t : alike [GU3 t (- (PI / 2)) (PI / 2)] [GRX t]
| alike_U3RY t : alike [GU3 t 0 0] [GRY t]
| alike_U2H : alike [GU2 0 PI] [GH].

(** Calls that make gates which are their own inverse. *)
Inductive own_inverse : call -> Prop :=
| own_swap a b cs vs : own_inverse (CallSwap a b cs vs)
| own_ecr a b cs vs : own_inverse (CallEcr a b cs vs)
| own_cx c t : own_inverse (CallCX c t)
| own_cz c t : own_inverse (CallCZ c t)
| own_ccx c d t : own_inverse (CallCCX c d t)
(* a Pauli gate whose coefficient squares to 1 *)
| own_pauli p cs vs : p_bf p < 2 ^ 64 -> p_pf p < 2 ^ 64 -> (p_coef p * p_coef p = C1)%C -> own_inverse (CallPauli p cs vs)
(* a matrix gate with its targets in any order *)
| own_dense ts M cs vs u : mat_eq (2 ^ N.of_nat (length ts)) (mat_mul (2 ^ N.of_nat (length ts)) (m_at M) (m_at M)) mat_id -> own_inverse (CallDense ts M cs vs u).
