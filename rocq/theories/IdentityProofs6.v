From Verif Require Export IdentityProofs5.
From Verif Require Import Spec GatesProofs GatesProofs2 GatesProofs5 GatesProofs8 GatesProofs9.
Require Import Lia.
Local Open Scope N_scope.

(** the basis state a CX sends x to *)
Definition cx_bits (c t x : N) : N := if N.testbit x c then set_bit x t (negb (N.testbit x t)) else x.
Lemma x_controlled c t psi x : apply_mat [t] [(c, true)] (pauli1 1) psi x = psi (cx_bits c t x).
Proof.
  rewrite apply_mat_one. unfold ctrl_ok, cx_bits. cbn [forallb fst snd]. rewrite andb_true_r. destruct (N.testbit x c); cbn [Bool.eqb]; [|reflexivity].
  unfold set_bit. destruct (N.testbit x t); cbn [N.b2n negb].
  - change (pauli1 1 1 0) with C1. change (pauli1 1 1 1) with C0. ring.
  - change (pauli1 1 0 0) with C0. change (pauli1 1 0 1) with C1. ring.
Qed.
Lemma cx_bits_tb c t x i : N.testbit (cx_bits c t x) i = if i =? t then xorb (N.testbit x t) (N.testbit x c) else N.testbit x i.
Proof.
  unfold cx_bits. destruct (N.testbit x c) eqn:E.
  - rewrite set_bit_tb. destruct (i =? t); [|reflexivity]. now destruct (N.testbit x t).
  - destruct (N.eqb_spec i t) as [->|]; [|reflexivity]. now rewrite xorb_false_r.
Qed.
Lemma three_cx a b x : a <> b -> cx_bits a b (cx_bits b a (cx_bits a b x)) = exchange x a b.
Proof.
  intros H. apply N.bits_inj. intros i. unfold exchange. rewrite !set_bit_tb, !cx_bits_tb.
  rewrite !N.eqb_refl. replace (a =? b) with false by (symmetry; now apply N.eqb_neq). replace (b =? a) with false by (symmetry; now apply N.eqb_neq; congruence).
  destruct (i =? b), (i =? a), (N.testbit x a), (N.testbit x b); reflexivity.
Qed.
Lemma swap_from_cx vf a b g1 g2 g n B L psi : make vf (CallCX a b) = Ok g1 -> make vf (CallCX b a) = Ok g2 -> make vf (CallSwap a b [] []) = Ok g ->
  a < n -> b < n -> sizes_ok n B L ->
  (exists r, in_turn n B L [g1; g2; g1] psi r) /\ (exists r, in_turn n B L [g] psi r) /\
  forall r r', in_turn n B L [g1; g2; g1] psi r -> in_turn n B L [g] psi r' -> forall x, x < B * 2 ^ n -> r x = r' x.
Proof.
  intros E1 E2 Eg Ha Hb Hs. assert (D : a <> b) by (apply (pair_differ vf (CallCX a b) g1 a b n); try reflexivity; try exact I; assumption).
  assert (U1 : forall p, updating n B L g1 p (apply_mat [b] [(a, true)] (pauli1 1) p)) by (intros p; apply (updating_call vf (CallCX a b)); try exact I; try assumption; repeat constructor; assumption).
  assert (U2 : forall p, updating n B L g2 p (apply_mat [a] [(b, true)] (pauli1 1) p)) by (intros p; apply (updating_call vf (CallCX b a)); try exact I; try assumption; repeat constructor; assumption).
  assert (Ug : updating n B L g psi (apply_mat [a; b] [] swap_textbook psi)) by (apply (updating_call vf (CallSwap a b [] [])); try exact I; try assumption; repeat constructor; assumption).
  assert (ND : forall t : N, NoDup [t]) by (intros t; repeat constructor; intros []).
  assert (FA : Forall (fun q => q < n) [a]) by (repeat constructor; assumption). assert (FB : Forall (fun q => q < n) [b]) by (repeat constructor; assumption).
  split; [|split].
  - destruct (updating_exists _ _ _ _ _ _ (U1 psi)) as (r1 & R1). destruct (updating_exists _ _ _ _ _ _ (U2 r1)) as (r2 & R2). destruct (updating_exists _ _ _ _ _ _ (U1 r2)) as (r3 & R3).
    exists r3. econstructor; [exact R1|]. econstructor; [exact R2|]. econstructor; [exact R3|constructor].
  - destruct (updating_exists _ _ _ _ _ _ Ug) as (r & R). exists r. econstructor; [exact R|constructor].
  - intros r r' H H' x Hx. inversion H as [|? ? ? p1 ? R1 H1]; subst. inversion H1 as [|? ? ? p2 ? R2 H2]; subst. inversion H2 as [|? ? ? p3 ? R3 H3]; subst. inversion H3; subst.
    inversion H' as [|? ? ? q1 ? Q1 H4]; subst. inversion H4; subst.
    rewrite (updating_result _ _ _ _ _ _ _ _ (U1 p2) R3 Hx), (updating_result _ _ _ _ _ _ _ _ Ug Q1 Hx).
    transitivity (apply_mat [b] [(a, true)] (pauli1 1) (apply_mat [a] [(b, true)] (pauli1 1) (apply_mat [b] [(a, true)] (pauli1 1) psi)) x).
    + apply (apply_mat_local_flat _ _ _ _ _ n B x (ND b) FB); [|exact Hx]. intros y Hy. rewrite (updating_result _ _ _ _ _ _ _ _ (U2 p1) R2 Hy).
      apply (apply_mat_local_flat _ _ _ _ _ n B y (ND a) FA); [|exact Hy]. intros w Hw. exact (updating_result _ _ _ _ _ _ _ _ (U1 psi) R1 Hw).
    + rewrite !x_controlled. rewrite three_cx by assumption. symmetry. etransitivity; [apply apply_swap; exact D|reflexivity].
Qed.
