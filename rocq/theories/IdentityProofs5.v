From Verif Require Export IdentityProofs4.
From Verif Require Import Spec GatesProofs GatesProofs2 GatesProofs5 GatesProofs8 GatesProofs9.
Require Import Lia Lra.
Local Open Scope N_scope.

Lemma clear_bit x t : N.testbit x t = false -> N.clearbit x t = x.
Proof. intros H. apply N.bits_inj. intros i. rewrite N.clearbit_eqb. destruct (N.eqb_spec t i) as [<-|]; [now rewrite H|apply andb_true_r]. Qed.
Lemma set_bit_on x t : N.testbit x t = true -> N.setbit x t = x.
Proof. intros H. apply N.bits_inj. intros i. rewrite N.setbit_eqb. destruct (N.eqb_spec t i) as [<-|]; [now rewrite H|reflexivity]. Qed.
Lemma cc x t : N.clearbit (N.clearbit x t) t = N.clearbit x t.
Proof. apply clear_bit. apply N.clearbit_eq. Qed.
Lemma sc x t : N.setbit (N.clearbit x t) t = N.setbit x t.
Proof. apply N.bits_inj. intros i. rewrite !N.setbit_eqb, N.clearbit_eqb. destruct (t =? i); [reflexivity|now rewrite andb_true_r]. Qed.
Lemma cs x t : N.clearbit (N.setbit x t) t = N.clearbit x t.
Proof. apply N.bits_inj. intros i. rewrite !N.clearbit_eqb, N.setbit_eqb. destruct (t =? i); [now rewrite !andb_false_r|reflexivity]. Qed.
Lemma ss x t : N.setbit (N.setbit x t) t = N.setbit x t.
Proof. apply set_bit_on. apply N.setbit_eq. Qed.
Lemma isq2_square : (isq2 * isq2 + isq2 * isq2 = C1)%C.
Proof.
  assert (Q : (/ sqrt 2 * / sqrt 2 = / 2)%R) by (rewrite <- Rinv_mult, sqrt_sqrt by lra; reflexivity).
  unfold isq2. apply C_eq; Cunfold; cbn [fst snd]; [|ring]. rewrite Q. lra.
Qed.
Lemma z_controlled c t psi x : c <> t ->
  apply_mat [t] [(c, true)] (pauli1 3) psi x = if N.testbit x c && N.testbit x t then (- psi x)%C else psi x.
Proof.
  intros H. rewrite apply_mat_one. unfold ctrl_ok. cbn [forallb fst snd]. rewrite andb_true_r. destruct (N.testbit x c); [|reflexivity]. cbn [Bool.eqb andb].
  destruct (N.testbit x t) eqn:E; cbn [N.b2n].
  - rewrite (set_bit_on x t E). change (pauli1 3 1 0) with C0. change (pauli1 3 1 1) with (- C1)%C. ring.
  - rewrite (clear_bit x t E). change (pauli1 3 0 0) with C1. change (pauli1 3 0 1) with C0. ring.
Qed.
Lemma h_z_h c t psi x : c <> t ->
  apply_mat [t] [] (std1_textbook GH) (apply_mat [t] [(c, true)] (pauli1 3) (apply_mat [t] [] (std1_textbook GH) psi)) x = apply_mat [t] [(c, true)] (pauli1 1) psi x.
Proof.
  intros H. rewrite apply_mat_one. unfold ctrl_ok at 1. cbn [forallb].
  rewrite !z_controlled by assumption. rewrite N.clearbit_eq, N.setbit_eq, N.clearbit_neq, N.setbit_neq, andb_false_r, andb_true_r by congruence.
  rewrite !(apply_mat_one t [] _ psi). unfold ctrl_ok at 1 2. cbn [forallb]. rewrite N.clearbit_eq, N.setbit_eq, cc, sc, cs, ss.
  rewrite apply_mat_one. unfold ctrl_ok. cbn [forallb fst snd]. rewrite andb_true_r.
  pose proof isq2_square as Q. set (u := psi (N.clearbit x t)). set (v := psi (N.setbit x t)).
  cbn [std1_textbook N.b2n].
  change (mat2 isq2 isq2 isq2 (- isq2)%C 0 0) with isq2. change (mat2 isq2 isq2 isq2 (- isq2)%C 0 1) with isq2.
  change (mat2 isq2 isq2 isq2 (- isq2)%C 1 0) with isq2. change (mat2 isq2 isq2 isq2 (- isq2)%C 1 1) with (- isq2)%C.
  destruct (N.testbit x c); cbn [Bool.eqb].
  - destruct (N.testbit x t) eqn:E; cbn [N.b2n].
    + change (mat2 isq2 isq2 isq2 (- isq2)%C 1 0) with isq2. change (mat2 isq2 isq2 isq2 (- isq2)%C 1 1) with (- isq2)%C.
      change (pauli1 1 1 0) with C1. change (pauli1 1 1 1) with C0.
      transitivity ((isq2 * isq2 + isq2 * isq2) * u)%C; [ring|rewrite Q; ring].
    + change (mat2 isq2 isq2 isq2 (- isq2)%C 0 0) with isq2. change (mat2 isq2 isq2 isq2 (- isq2)%C 0 1) with isq2.
      change (pauli1 1 0 0) with C0. change (pauli1 1 0 1) with C1.
      transitivity ((isq2 * isq2 + isq2 * isq2) * v)%C; [ring|rewrite Q; ring].
  - destruct (N.testbit x t) eqn:E; cbn [N.b2n].
    + change (mat2 isq2 isq2 isq2 (- isq2)%C 1 0) with isq2. change (mat2 isq2 isq2 isq2 (- isq2)%C 1 1) with (- isq2)%C.
      replace (psi x) with v by (unfold v; now rewrite (set_bit_on x t E)).
      transitivity ((isq2 * isq2 + isq2 * isq2) * v)%C; [ring|rewrite Q; ring].
    + change (mat2 isq2 isq2 isq2 (- isq2)%C 0 0) with isq2. change (mat2 isq2 isq2 isq2 (- isq2)%C 0 1) with isq2.
      replace (psi x) with u by (unfold u; now rewrite (clear_bit x t E)).
      transitivity ((isq2 * isq2 + isq2 * isq2) * u)%C; [ring|rewrite Q; ring].
Qed.
Lemma pair_differ vf k g c t n : call_targets k = [t] -> call_controls k = [(c, true)] -> call_typed k -> make vf k = Ok g -> c < n -> t < n -> c <> t.
Proof.
  intros Et Ec T E Hc Ht. assert (HF : Forall (fun q => q < n) (call_operands k)) by (unfold call_operands; rewrite Et, Ec; repeat constructor; assumption).
  pose proof (proj1 (call_wf_ops vf k g n T E HF)) as H. rewrite Et, Ec in H. cbn in H. inversion H as [|? ? K]; subst. intros ->. apply K. now left.
Qed.
Lemma cz_either_way vf a b g g' n B L psi : make vf (CallCZ a b) = Ok g -> make vf (CallCZ b a) = Ok g' -> a < n -> b < n -> sizes_ok n B L ->
  (exists r, result n B L g psi r) /\ (exists r, result n B L g' psi r) /\
  forall r r', result n B L g psi r -> result n B L g' psi r' -> forall x, x < B * 2 ^ n -> r x = r' x.
Proof.
  intros E E' Ha Hb Hs. assert (D : a <> b) by (apply (pair_differ vf (CallCZ a b) g a b n); try reflexivity; try exact I; assumption).
  assert (U : updating n B L g psi (apply_mat [b] [(a, true)] (pauli1 3) psi)) by (apply (updating_call vf (CallCZ a b)); try exact I; try assumption; repeat constructor; assumption).
  assert (U' : updating n B L g' psi (apply_mat [a] [(b, true)] (pauli1 3) psi)) by (apply (updating_call vf (CallCZ b a)); try exact I; try assumption; repeat constructor; assumption).
  split; [exact (updating_exists _ _ _ _ _ _ U)|]. split; [exact (updating_exists _ _ _ _ _ _ U')|].
  intros r r' R R' x Hx. rewrite (updating_result _ _ _ _ _ _ _ _ U R Hx), (updating_result _ _ _ _ _ _ _ _ U' R' Hx).
  rewrite !z_controlled by congruence. now rewrite andb_comm.
Qed.
Lemma cx_from_cz vf c t h z g n B L psi : make vf (Call1 GH t [] []) = Ok h -> make vf (CallCZ c t) = Ok z -> make vf (CallCX c t) = Ok g ->
  c < n -> t < n -> sizes_ok n B L ->
  (exists r, in_turn n B L [h; z; h] psi r) /\ (exists r, in_turn n B L [g] psi r) /\
  forall r r', in_turn n B L [h; z; h] psi r -> in_turn n B L [g] psi r' -> forall x, x < B * 2 ^ n -> r x = r' x.
Proof.
  intros Eh Ez Eg Hc Ht Hs. assert (D : c <> t) by (apply (pair_differ vf (CallCZ c t) z c t n); try reflexivity; try exact I; assumption).
  assert (Uh : forall p, updating n B L h p (apply_mat [t] [] (std1_textbook GH) p)) by (intros p; apply (updating_call vf (Call1 GH t [] [])); try exact I; try assumption; repeat constructor; assumption).
  assert (Uz : forall p, updating n B L z p (apply_mat [t] [(c, true)] (pauli1 3) p)) by (intros p; apply (updating_call vf (CallCZ c t)); try exact I; try assumption; repeat constructor; assumption).
  assert (Ug : updating n B L g psi (apply_mat [t] [(c, true)] (pauli1 1) psi)) by (apply (updating_call vf (CallCX c t)); try exact I; try assumption; repeat constructor; assumption).
  assert (ND : NoDup [t]) by (repeat constructor; intros []). assert (FT : Forall (fun q => q < n) [t]) by (repeat constructor; assumption).
  split; [|split].
  - destruct (updating_exists _ _ _ _ _ _ (Uh psi)) as (r1 & R1). destruct (updating_exists _ _ _ _ _ _ (Uz r1)) as (r2 & R2). destruct (updating_exists _ _ _ _ _ _ (Uh r2)) as (r3 & R3).
    exists r3. econstructor; [exact R1|]. econstructor; [exact R2|]. econstructor; [exact R3|constructor].
  - destruct (updating_exists _ _ _ _ _ _ Ug) as (r & R). exists r. econstructor; [exact R|constructor].
  - intros r r' H H' x Hx. inversion H as [|? ? ? p1 ? R1 H1]; subst. inversion H1 as [|? ? ? p2 ? R2 H2]; subst. inversion H2 as [|? ? ? p3 ? R3 H3]; subst. inversion H3; subst.
    inversion H' as [|? ? ? q1 ? Q1 H4]; subst. inversion H4; subst.
    rewrite (updating_result _ _ _ _ _ _ _ _ (Uh p2) R3 Hx), (updating_result _ _ _ _ _ _ _ _ Ug Q1 Hx). rewrite <- h_z_h by assumption.
    apply (apply_mat_local_flat _ _ _ _ _ n B x ND FT); [|exact Hx]. intros y Hy. rewrite (updating_result _ _ _ _ _ _ _ _ (Uz p1) R2 Hy).
    apply (apply_mat_local_flat _ _ _ _ _ n B y ND FT); [|exact Hy]. intros w Hw. exact (updating_result _ _ _ _ _ _ _ _ (Uh psi) R1 Hw).
Qed.
