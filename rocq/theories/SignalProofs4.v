(** No signalling: circuits that draw nothing, single runs, an example. *)
From Verif Require Export SignalProofs3 OrderProofs4.
From Verif Require Import ChannelProofs5.
From Coq Require Import ZifyBool ZifyN ZifyNat Lra.

Theorem marginal_exact n L ps c p l w vs : n < 64 -> lanes_ok L -> circuit_is c p -> norm_kept n ps p -> sqnorm n (w_amp w) = 1%R -> (forall k, unit_draw (w_rand w k)) ->
  Forall (fun q => q < n) (program_operands p) -> instantiate ps p = Some l -> orderly (length (w_reg w)) [] l -> draws_list l = 0%nat ->
  N.of_nat (length vs) = n -> (forall q, In q (program_operands p) -> nth (N.to_nat q) vs 2 = 2) ->
  runs (circuit_update n L ps c) w (done (fun _ w' => prob n (shows vs) (w_amp w') = prob n (shows vs) (w_amp w))).
Proof.
  intros Hn HL Hc Hk Hs Hu HF Hl Ho Hd Hlen Hv. pose proof (marginal_elsewhere n L ps c p l (w_amp w) (w_reg w) Hn HL Hc Hk Hs HF Hl Ho vs Hlen Hv) as H.
  rewrite Hd in H. cbn [averaged] in H. destruct (H w (fun x _ => eq_refl) eq_refl Hu eq_refl) as [G E]. split; [|exact E].
  intros o Hoo. specialize (G o Hoo). destruct o; cbn [done] in *; auto. now apply (f_equal Re) in G.
Qed.

(** Qubits 0 and 1 of 3/5 |00> + 4/5 |11>: measuring qubit 0 *)
Definition pair_state : state := fun x => if x =? 0 then RtoC (3 / 5) else if x =? 3 then RtoC (4 / 5) else C0.
Definition one_calls : list cop := [OGate (CMeas 1 0 false)].
Definition one_program : program := [(SFixed (Meas 0 0 false), None)].
Lemma pair_norm : sqnorm 2 pair_state = 1%R.
Proof. rewrite sqnorm_2. unfold pair_state. cbn [N.eqb Pos.eqb]. rewrite !Cnorm2_R, !Cnorm2_0. lra. Qed.
Lemma prob_show psi : prob 2 (shows [2; 1]) psi = (Cnorm2 (psi 2%N) + (Cnorm2 (psi 3%N) + 0))%R.
Proof. reflexivity. Qed.
Theorem single_run_refuted L : lanes_ok L -> exists (c : circuit) (p : program) (w : world),
  circuit_is c p /\ ~ In 1 (program_operands p) /\ sqnorm 2 (w_amp w) = 1%R /\ (forall k, unit_draw (w_rand w k)) /\
  prob 2 (shows [2; 1]) (w_amp w) = (16 / 25)%R /\
  runs (circuit_update 2 L (fun _ => None) c) w (done (fun _ w' => prob 2 (shows [2; 1]) (w_amp w') = 0%R)).
Proof.
  intros HL. exists (build one_calls), one_program, (World pair_state None [false] some_numbers). cbn [w_amp w_rand].
  assert (Hu : forall k, unit_draw (some_numbers k)) by (intros [|k]; cbn; unfold unit_draw; lra).
  assert (Hc : circuit_is (build one_calls) one_program).
  { apply build_program; cbn [one_calls flat_map says app one_program]; apply Forall2_cons; try apply Forall2_nil; (split; [|reflexivity]); cbn [fst]; apply represents_gate; now apply stands_measure. }
  split; [exact Hc|]. split; [cbn; intros [H|[]]; discriminate|]. split; [exact pair_norm|]. split; [exact Hu|]. split.
  { rewrite prob_show. unfold pair_state. cbn [N.eqb Pos.eqb]. rewrite Cnorm2_R, Cnorm2_0. lra. }
  assert (P0 : bit_prob 2 0 false pair_state = (9 / 25)%R) by (rewrite prob_q0; unfold pair_state; cbn [N.eqb Pos.eqb]; rewrite Cnorm2_R, Cnorm2_0; lra).
  assert (S1 : shown 2 0 pair_state 0 = false) by (unfold shown; rewrite P0; destruct (Rlt_dec 0 (9 / 25)); [reflexivity|lra]).
  eapply runs_weaken; [apply (runs_to 2 L _ _ one_program _ [0%R] (SDone (SState (measured 2 0 false false pair_state) [false]))); try assumption; try reflexivity|].
  - assert (Hd : cond_defined None) by (intros r; discriminate). apply Forall_cons; [|apply Forall_nil]. split; [assumption|]. cbn [fst snd item_gate]; intros g [= <-]; reflexivity.
  - exact pair_norm.
  - unfold run_program. change (existsb _ _) with false. cbn [instantiate one_program item_gate].
    apply (exec_gate watch_all 2 _ _ _ [] [0%R] [] _ (SState (measured 2 0 false false pair_state) [false])); [reflexivity|reflexivity| |constructor].
    apply meas_step; [reflexivity|exact pair_norm|]. cbn [s_psi s_reg w_amp w_reg]. rewrite S1. reflexivity.
  - intros [[] w'|w'|] He; cbn [ends_as] in He; try contradiction. destruct He as [He _]. cbn [done s_psi] in *. rewrite prob_show, !He by reflexivity.
    unfold measured, projected. cbn [andb]. change (shows_bit 0 false 2) with true. change (shows_bit 0 false 3) with false. unfold pair_state. cbn [N.eqb Pos.eqb]. unfold Cnorm2, Cscale, C0, Re, Im. cbn [fst snd]. ring.
Qed.
(** H(0), measure 0, X(1) if it showed 1, RX(1) on two of three entangled qubits *)
Definition three_state : state := fun x => if x =? 0 then RtoC (3 / 5) else if x =? 7 then RtoC (4 / 5) else C0.
Lemma sqnorm_3 psi : sqnorm 3 psi = (Cnorm2 (psi 0%N) + (Cnorm2 (psi 1%N) + (Cnorm2 (psi 2%N) + (Cnorm2 (psi 3%N) + (Cnorm2 (psi 4%N) + (Cnorm2 (psi 5%N) + (Cnorm2 (psi 6%N) + (Cnorm2 (psi 7%N) + 0))))))))%R.
Proof. reflexivity. Qed.
Lemma prob_three psi : prob 3 (shows [2; 2; 1]) psi = (Cnorm2 (psi 4%N) + (Cnorm2 (psi 5%N) + (Cnorm2 (psi 6%N) + (Cnorm2 (psi 7%N) + 0))))%R.
Proof. reflexivity. Qed.
Lemma signal_example : circuit_is (build ex_calls) ex_program /\ norm_kept 3 (fun _ => Some 1%R) ex_program /\ sqnorm 3 three_state = 1%R /\
  Forall (fun q => q < 3) (program_operands ex_program) /\ (exists l, instantiate (fun _ => Some 1%R) ex_program = Some l /\ orderly (length [false]) [] l /\ draws_list l = 1%nat) /\
  ~ In 2 (program_operands ex_program) /\ prob 3 (shows [2; 2; 1]) three_state = (16 / 25)%R.
Proof.
  split; [exact ex_built|]. split; [|split; [|split; [repeat constructor|split; [|split]]]].
  - unfold norm_kept, ex_program. assert (Hb : cond_defined (Some (bit_cond 0 true))).
    { intros r. cbn [holds]. unfold bit_cond, reg_read. destruct r as [|b r]; discriminate. }
    assert (Hc : cond_defined None) by (intros r; discriminate).
    repeat apply Forall_cons; [| | | |apply Forall_nil]; (split; [assumption|]); cbn [fst snd item_gate]; intros g [= <-].
    + apply (unitary_act_keeps 3 true _ ex_H); try reflexivity; try exact I. repeat constructor.
    + reflexivity.
    + apply (unitary_act_keeps 3 true _ ex_X); try reflexivity; try exact I. repeat constructor.
    + apply (unitary_act_keeps 3 true _ (pgate_at ex_RX 1)); try reflexivity; try exact I. repeat constructor.
  - rewrite sqnorm_3. unfold three_state. cbn [N.eqb Pos.eqb]. rewrite !Cnorm2_R, !Cnorm2_0. lra.
  - eexists. split; [reflexivity|]. split; [|reflexivity].
    assert (Hn : forall r : list bool, length r = length [false] -> exists b, holds None r = Ok b) by (intros r _; eexists; reflexivity).
    cbn [orderly]. refine (conj I (conj Hn (conj eq_refl (conj _ (conj Hn (conj eq_refl (conj I (conj _ (conj eq_refl (conj I (conj Hn (conj eq_refl I)))))))))))).
    + reflexivity.
    + intros [|b [|]] Hr; try discriminate. cbn [holds]. unfold bit_cond, reg_read. eexists. reflexivity.
  - cbn. intuition discriminate.
  - rewrite prob_three. unfold three_state. cbn [N.eqb Pos.eqb]. rewrite !Cnorm2_R, !Cnorm2_0. lra.
Qed.
