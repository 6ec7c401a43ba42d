(** Deferred measurement: an example, and where the circuits differ. *)
From Verif Require Export DeferProofs2 OrderProofs4.
From Verif Require Import ChannelProofs5.
From Coq Require Import ZifyBool ZifyN ZifyNat Lra Permutation.

(** H(0), CX(0,1), measure 0, RX(1) *)
Definition cx_gate : egate := EStd GX (GBase 2 1 1).
Definition cx_calls : list cop := [OGate (CElem (true, ex_H)); OGate (CElem (true, cx_gate)); OGate (CMeas 1 0 false); OParam ex_RX "theta"].
Definition cx_program : program := [(SFixed (act_of (Call1 GH 0 [] [])), None); (SFixed (act_of (CallCX 0 1)), None); (SFixed (Meas 0 0 false), None);
  (SKeyed "theta" (fun v => act_of (pcall_at (PCallRot RotX 1 1 [] []) v)), None)].
Lemma x_controlled : one_more_control 0 true (Call1 GX 1 [] []) (CallCX 0 1).
Proof.
  split; [cbn; intros [H|[]]; discriminate|]. split; [reflexivity|]. split; [reflexivity|]. intros i j. reflexivity.
Qed.
Lemma cx_made : make true (CallCX 0 1) = Ok cx_gate.
Proof. reflexivity. Qed.
Lemma ex_orderly : exists l, instantiate (fun _ => Some 1%R) ex_program = Some l /\ orderly (length [false]) [] l.
Proof.
  eexists. split; [reflexivity|]. assert (Hn : forall r : list bool, length r = length [false] -> exists b, holds None r = Ok b) by (intros r _; eexists; reflexivity).
  cbn [orderly]. refine (conj I (conj Hn (conj eq_refl (conj _ (conj Hn (conj eq_refl (conj I (conj _ (conj eq_refl (conj I (conj Hn (conj eq_refl I)))))))))))).
  - reflexivity.
  - intros [|b [|]] Hr; try discriminate. cbn [holds]. unfold bit_cond, reg_read. eexists. reflexivity.
Qed.
Lemma defer_example : circuit_is (build ex_calls) ex_program /\ circuit_is (build cx_calls) cx_program /\ deferred ex_program cx_program /\
  norm_kept 2 (fun _ => Some 1%R) ex_program /\ sqnorm 2 ex_zero = 1%R /\ Forall (fun q => q < 2) (program_operands ex_program) /\
  exists l, instantiate (fun _ => Some 1%R) ex_program = Some l /\ orderly (length [false]) [] l.
Proof.
  split; [exact ex_built|]. split.
  { apply build_program. cbn [cx_calls flat_map says app cx_program]. repeat apply Forall2_cons; try apply Forall2_nil; (split; [|reflexivity]); cbn [fst snd].
    - apply represents_gate. exact (noise1_stands GH 0 eq_refl).
    - apply represents_gate. constructor. apply (acts_factory true); [exact I|exact cx_made].
    - apply represents_gate. now apply stands_measure.
    - apply represents_param. apply (pstands_factory true); [exact I|reflexivity]. }
  split; [exact (deferred_gate [(SFixed (act_of (Call1 GH 0 [] [])), None)] 0 0 false true _ _ _ (controlled_gate 0 true _ _ x_controlled))|].
  split; [exact ex_kept|]. split; [exact ex_zero_norm|]. split; [repeat constructor|exact ex_orderly].
Qed.

(** measure 1, measure 0, X(1) if bit 0 shows 1; measure 1, CX(0,1), measure 0 *)
Definition late_calls : list cop := [OGate (CMeas 2 1 false); OGate (CMeas 1 0 false); OCondGate (CElem (true, ex_X)) (bit_cond 0 true)].
Definition late_calls' : list cop := [OGate (CMeas 2 1 false); OGate (CElem (true, cx_gate)); OGate (CMeas 1 0 false)].
Definition late_program : program := [(SFixed (Meas 1 1 false), None); (SFixed (Meas 0 0 false), None); (SFixed (act_of (Call1 GX 1 [] [])), Some (bit_cond 0 true))].
Definition late_program' : program := [(SFixed (Meas 1 1 false), None); (SFixed (act_of (CallCX 0 1)), None); (SFixed (Meas 0 0 false), None)].
Lemma late_deferred : deferred late_program late_program'.
Proof. exact (deferred_gate [(SFixed (Meas 1 1 false), None)] 0 0 false true _ _ [] (controlled_gate 0 true _ _ x_controlled)). Qed.
Lemma late_kept : norm_kept 2 (fun _ => None) late_program.
Proof.
  unfold norm_kept, late_program. assert (Hb : cond_defined (Some (bit_cond 0 true))) by (intros r; cbn [holds]; unfold bit_cond, reg_read; destruct r as [|b r]; discriminate).
  assert (Hc : cond_defined None) by (intros r; discriminate).
  repeat apply Forall_cons; try apply Forall_nil; (split; [assumption|]); cbn [fst snd item_gate]; intros g [= <-]; try reflexivity.
  apply (unitary_act_keeps 2 true _ ex_X); try reflexivity; try exact I. repeat constructor.
Qed.
Lemma q0_zero b psi : bit_prob 2 0 b psi = if b then (Cnorm2 (psi 1%N) + (Cnorm2 (psi 3%N) + 0))%R else (Cnorm2 (psi 0%N) + (Cnorm2 (psi 2%N) + 0))%R.
Proof. destruct b; reflexivity. Qed.
Theorem late_refuted L : lanes_ok L -> exists (c c' : circuit) (p p' : program) (w : world),
  circuit_is c p /\ circuit_is c' p' /\ norm_kept 2 (fun _ => None) p /\ deferred p p' /\ sqnorm 2 (w_amp w) = 1%R /\ (forall k, unit_draw (w_rand w k)) /\
  runs (circuit_update 2 L (fun _ => None) c) w (done (fun _ w' => w_reg w' = [false; false])) /\
  runs (circuit_update 2 L (fun _ => None) c') w (fun o => exists w', o = HThrown w').
Proof.
  intros HL. exists (build late_calls), (build late_calls'), late_program, late_program', (World ex_zero None [false; false] some_numbers). cbn [w_amp w_rand].
  assert (Hu : forall k, unit_draw (some_numbers k)) by (intros [|k]; cbn; unfold unit_draw; lra).
  assert (Hc : circuit_is (build late_calls) late_program).
  { apply build_program. cbn [late_calls flat_map says app late_program]. repeat apply Forall2_cons; try apply Forall2_nil; (split; [|reflexivity]); cbn [fst snd]; apply represents_gate; try (now apply stands_measure).
    exact (noise1_stands GX 1 eq_refl). }
  assert (Hc' : circuit_is (build late_calls') late_program').
  { apply build_program. cbn [late_calls' flat_map says app late_program']. repeat apply Forall2_cons; try apply Forall2_nil; (split; [|reflexivity]); cbn [fst snd]; apply represents_gate; try (now apply stands_measure).
    constructor. apply (acts_factory true); [exact I|exact cx_made]. }
  split; [exact Hc|]. split; [exact Hc'|]. split; [exact late_kept|]. split; [exact late_deferred|]. split; [exact ex_zero_norm|]. split; [exact Hu|].
  assert (P1 : bit_prob 2 1 false ex_zero = 1%R) by (rewrite prob_q1; unfold ex_zero; cbn [N.eqb]; rewrite Cnorm2_0; unfold Cnorm2, C1, Re, Im; cbn [fst snd]; ring).
  assert (S1 : shown 2 1 ex_zero 0 = false) by (unfold shown; rewrite P1; destruct (Rlt_dec 0 1); [reflexivity|lra]).
  set (phi := measured 2 1 false false ex_zero).
  assert (Hphi : sqnorm 2 phi = 1%R /\ bit_prob 2 0 false phi = 1%R).
  { rewrite sqnorm_2, prob_q0. unfold phi, measured, projected. rewrite P1, sqrt_1. cbn [andb]. change (shows_bit 1 false 0) with true. change (shows_bit 1 false 1) with true. change (shows_bit 1 false 2) with false. change (shows_bit 1 false 3) with false.
    unfold ex_zero. cbn [N.eqb]. unfold Cnorm2, Cscale, C0, C1, Re, Im. cbn [fst snd]. split; field. }
  destruct Hphi as [N1 P2]. assert (S2 : shown 2 0 phi (9 / 10) = false) by (unfold shown; rewrite P2; destruct (Rlt_dec (9 / 10) 1); [reflexivity|lra]).
  split.
  - eapply runs_weaken; [apply (runs_to 2 L _ _ late_program _ [0; 9 / 10]%R (SDone (SState (measured 2 0 false false phi) [false; false]))); try assumption; try reflexivity|].
    + exact late_kept.
    + exact ex_zero_norm.
    + unfold run_program. change (existsb _ _) with false. cbn [instantiate late_program item_gate].
      apply (exec_gate watch_all 2 _ _ _ [] [0%R] [(9 / 10)%R] _ (SState phi [false; false])); [reflexivity|reflexivity| |].
      * apply meas_step; [reflexivity|exact ex_zero_norm|]. cbn [s_psi s_reg w_amp w_reg]. rewrite S1. reflexivity.
      * apply (exec_gate watch_all 2 _ _ _ _ [(9 / 10)%R] [] _ (SState (measured 2 0 false false phi) [false; false])); [reflexivity|reflexivity| |].
        { apply meas_step; [reflexivity|exact N1|]. cbn [s_psi s_reg]. rewrite S2. reflexivity. }
        apply exec_skip; [reflexivity|constructor].
    + intros [[] w'|w'|] He; cbn [ends_as] in He; try contradiction. exact (proj2 He).
  - eapply runs_weaken; [apply (runs_to 2 L _ _ late_program' _ [0%R] (SThrown (SState phi [false; false]))); try assumption; try reflexivity|].
    + exact (proj1 (deferred_follows 2 _ _ _ late_deferred late_kept)).
    + exact ex_zero_norm.
    + unfold run_program. change (existsb _ _) with false. cbn [instantiate late_program' item_gate].
      apply (exec_gate watch_all 2 _ _ _ [] [0%R] [] _ (SState phi [false; false])); [reflexivity|reflexivity| |].
      * apply meas_step; [reflexivity|exact ex_zero_norm|]. cbn [s_psi s_reg w_amp w_reg]. rewrite S1. reflexivity.
      * apply exec_touches; reflexivity.
    + intros [[] w'|w'|] He; cbn [ends_as] in He; try contradiction. eauto.
Qed.
