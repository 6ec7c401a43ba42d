(** Examples for the order of gates; two measurements do not change places. *)
From Verif Require Export OrderProofs3.
From Verif Require Import ChannelProofs5.
From Coq Require Import ZifyBool ZifyN ZifyNat Lra FunctionalExtensionality.

(** H(0); measure qubit 0 into bit 0; RX(1) by theta; X(1) if the bit is set *)
Definition ord_calls : list cop := [OGate (CElem (true, ex_H)); OGate (CMeas 1 0 false); OParam ex_RX "theta"; OCondGate (CElem (true, ex_X)) (bit_cond 0 true)].
(** the same with RX first *)
Definition ord_calls' : list cop := [OParam ex_RX "theta"; OGate (CElem (true, ex_H)); OGate (CMeas 1 0 false); OCondGate (CElem (true, ex_X)) (bit_cond 0 true)].
Definition ord_program : program := [(SFixed (act_of (Call1 GH 0 [] [])), None); (SFixed (Meas 0 0 false), None);
  (SKeyed "theta" (fun v => act_of (pcall_at (PCallRot RotX 1 1 [] []) v)), None); (SFixed (act_of (Call1 GX 1 [] [])), Some (bit_cond 0 true))].
Lemma ord_example : circuit_is (build ord_calls) ord_program /\ norm_kept 2 (fun _ => Some 1%R) ord_program /\
  length (c_gates (build ord_calls')) = length (c_conds (build ord_calls')) /\ reordered (in_order (build ord_calls)) (in_order (build ord_calls')).
Proof.
  assert (D1 : no_common_qubit (IParam ex_RX "theta") (IGate (CMeas 1 0 false))) by (intros [|[|[]|]] H; try discriminate; reflexivity).
  assert (D2 : no_common_qubit (IParam ex_RX "theta") (IGate (CElem (true, ex_H)))) by (intros [|[|[]|]] H; try discriminate; reflexivity).
  split; [|split; [|split; [reflexivity|]]].
  - apply build_program. cbn [ord_calls flat_map says app ord_program]. repeat apply Forall2_cons; try apply Forall2_nil; (split; [|reflexivity]); cbn [fst].
    + apply represents_gate. exact (noise1_stands GH 0 eq_refl).
    + apply represents_gate. now apply stands_measure.
    + apply represents_param. apply (pstands_factory true); [exact I|reflexivity].
    + apply represents_gate. exact (noise1_stands GX 1 eq_refl).
  - pose proof ex_kept as H. unfold norm_kept, ex_program, ord_program in *. inversion H as [|? ? A1 H1]; subst. inversion H1 as [|? ? A2 H2]; subst. inversion H2 as [|? ? A3 H3]; subst. inversion H3 as [|? ? A4 _]; subst.
    repeat (apply Forall_cons; [assumption|]). apply Forall_nil.
  - unfold in_order. destruct (build_spec ord_calls) as [-> ->]. destruct (build_spec ord_calls') as [-> ->]. cbn [ord_calls ord_calls' flat_map says app map fst snd combine].
    eapply reordered_then.
    + apply (reordered_swap [(IGate (CElem (true, ex_H)), None)]). right. apply swap_past; [exact I|exact D1].
    + apply (reordered_swap []). right. apply swap_past; [exact I|exact D2].
Qed.

(** Both qubits put in superposition and measured, one after the other. *)
Definition ex_H1 : egate := EStd GH (GBase 2 0 0).
Definition two_calls : list cop := [OGate (CElem (true, ex_H)); OGate (CElem (true, ex_H1)); OGate (CMeas 1 0 false); OGate (CMeas 2 1 false)].
Definition two_calls' : list cop := [OGate (CElem (true, ex_H)); OGate (CElem (true, ex_H1)); OGate (CMeas 2 1 false); OGate (CMeas 1 0 false)].
Definition two_program : program := [(SFixed (act_of (Call1 GH 0 [] [])), None); (SFixed (act_of (Call1 GH 1 [] [])), None); (SFixed (Meas 0 0 false), None); (SFixed (Meas 1 1 false), None)].
Lemma two_apart : unrelated (IGate (CMeas 1 0 false), None) (IGate (CMeas 2 1 false), None).
Proof.
  split; [intros [|[|[]|]] H; try discriminate; reflexivity|]. split; [|split; intros H; now elim H]. intros k [<-|[]] [H|[]]. discriminate.
Qed.
Lemma two_is : circuit_is (build two_calls) two_program.
Proof.
  apply build_program. cbn [two_calls flat_map says app two_program]. repeat apply Forall2_cons; try apply Forall2_nil; (split; [|reflexivity]); cbn [fst]; apply represents_gate.
  - exact (noise1_stands GH 0 eq_refl).
  - exact (noise1_stands GH 1 eq_refl).
  - now apply stands_measure.
  - now apply stands_measure.
Qed.
Lemma two_kept ps : norm_kept 2 ps two_program.
Proof.
  assert (Hc : cond_defined None) by (intros r; discriminate).
  repeat apply Forall_cons; try apply Forall_nil; (split; [assumption|]); cbn [fst snd item_gate]; intros g [= <-]; try reflexivity.
  - apply (unitary_act_keeps 2 true _ ex_H); try reflexivity; try exact I. repeat constructor.
  - apply (unitary_act_keeps 2 true _ ex_H1); try reflexivity; try exact I. repeat constructor.
Qed.
Lemma two_example : circuit_is (build two_calls) two_program /\ norm_kept 2 (fun _ => None) two_program /\ Forall (fun q => q < 2) (program_operands two_program) /\
  (exists l, instantiate (fun _ => None) two_program = Some l /\ orderly 2 [] l /\ draws_list l = 2%nat) /\
  length (c_gates (build two_calls')) = length (c_conds (build two_calls')) /\ rearranged (in_order (build two_calls)) (in_order (build two_calls')).
Proof.
  split; [exact two_is|]. split; [apply two_kept|]. split; [repeat constructor|]. split; [|split; [reflexivity|]].
  - eexists. split; [reflexivity|]. split; [|reflexivity].
    assert (Hn : forall r : list bool, length r = 2%nat -> exists b, holds None r = Ok b) by (intros r _; eexists; reflexivity).
    cbn [orderly]. split; [exact I|]. split; [exact Hn|]. split; [reflexivity|]. split; [exact I|]. split; [exact Hn|]. split; [reflexivity|].
    split; [reflexivity|]. split; [exact Hn|]. split; [reflexivity|]. split; [reflexivity|]. split; [exact Hn|]. split; [reflexivity|exact I].
  - unfold in_order. destruct (build_spec two_calls) as [-> ->]. destruct (build_spec two_calls') as [-> ->]. cbn [two_calls two_calls' flat_map says app map fst snd combine].
    apply (rearranged_swap [(IGate (CElem (true, ex_H)), None); (IGate (CElem (true, ex_H1)), None)]). exact two_apart.
Qed.

(** ** Two measurements with the same random numbers *)
Definition meas_calls : list cop := [OGate (CMeas 1 0 false); OGate (CMeas 2 1 false)].
Definition meas_calls' : list cop := [OGate (CMeas 2 1 false); OGate (CMeas 1 0 false)].
Definition meas_program : program := [(SFixed (Meas 0 0 false), None); (SFixed (Meas 1 1 false), None)].
Definition meas_program' : program := [(SFixed (Meas 1 1 false), None); (SFixed (Meas 0 0 false), None)].
Definition uneven : state := fun x => if x =? 0 then RtoC (3 / 5) else if x =? 1 then RtoC (4 / 5) else C0.
Definition some_numbers : nat -> R := fun k => match k with O => 0 | _ => 9 / 10 end%R.
Lemma sqnorm_2 psi : sqnorm 2 psi = (Cnorm2 (psi 0%N) + (Cnorm2 (psi 1%N) + (Cnorm2 (psi 2%N) + (Cnorm2 (psi 3%N) + 0))))%R.
Proof. reflexivity. Qed.
Lemma prob_q0 psi : bit_prob 2 0 false psi = (Cnorm2 (psi 0%N) + (Cnorm2 (psi 2%N) + 0))%R.
Proof. reflexivity. Qed.
Lemma prob_q1 psi : bit_prob 2 1 false psi = (Cnorm2 (psi 0%N) + (Cnorm2 (psi 1%N) + 0))%R.
Proof. reflexivity. Qed.
Lemma Cnorm2_R r : Cnorm2 (RtoC r) = (r * r)%R.
Proof. unfold Cnorm2, RtoC, Re, Im. cbn [fst snd]. ring. Qed.
Lemma Cnorm2_0 : Cnorm2 C0 = 0%R.
Proof. unfold Cnorm2, C0, Re, Im. cbn [fst snd]. ring. Qed.
Lemma uneven_norm : sqnorm 2 uneven = 1%R.
Proof. rewrite sqnorm_2. unfold uneven. cbn [N.eqb Pos.eqb]. rewrite !Cnorm2_R, !Cnorm2_0. lra. Qed.
Lemma runs_to n L ps c p w us so : n < 64 -> lanes_ok L -> circuit_is c p -> norm_kept n ps p -> sqnorm n (w_amp w) = 1%R -> (forall k, unit_draw (w_rand w k)) ->
  us = map (w_rand w) (seq 0 (length us)) -> run_program watch_all n ps p us (SState (w_amp w) (w_reg w)) so -> runs (circuit_update n L ps c) w (fun o => ends_as n o so).
Proof.
  intros Hn HL Hc Hk Hs Hu Hus Hr. eapply runs_weaken; [apply (circuit_runs n L ps c p w (SState (w_amp w) (w_reg w)) Hn HL Hc (conj (fun x _ => eq_refl) eq_refl) Hu)|].
  - intros us1 Hus1. now apply program_inside.
  - intros o (us1 & so1 & H1 & [U1 _] & He). assert (so = so1); [|now subst]. unfold run_program in Hr, H1. destruct (existsb _ _); [destruct Hr as [_ ->], H1 as [_ ->]; auto|].
    destruct (instantiate ps p) as [l|] eqn:El; [|destruct Hr as [_ ->], H1 as [_ ->]; auto].
    exact (proj2 (exec_deterministic watch_all n l (instantiate_proper ps p _ l (proj1 Hc) El) [] (w_rand w) us us1 _ so so1 Hus U1 Hr H1)).
Qed.
Lemma meas_step n q bit s u s' : bit < N.of_nat (length (s_reg s)) -> sqnorm n (s_psi s) = 1%R -> s' = SState (measured n q false (shown n q (s_psi s) u) (s_psi s)) (with_bit (s_reg s) bit (shown n q (s_psi s) u)) ->
  step n (Meas q bit false) [u] s (SDone s').
Proof. intros H1 H2 ->. now apply step_measure. Qed.
Lemma meas_kept ps p : Permutation.Permutation meas_program p -> norm_kept 2 ps p.
Proof.
  intros H. unfold norm_kept. eapply Permutation.Permutation_Forall; [exact H|]. assert (Hc : cond_defined None) by (intros r; discriminate).
  repeat apply Forall_cons; try apply Forall_nil; (split; [assumption|]); cbn [fst snd item_gate]; intros g [= <-]; reflexivity.
Qed.
Lemma meas_is : circuit_is (build meas_calls) meas_program /\ circuit_is (build meas_calls') meas_program'.
Proof.
  split; apply build_program; cbn [meas_calls meas_calls' flat_map says app meas_program meas_program']; repeat apply Forall2_cons; try apply Forall2_nil; (split; [|reflexivity]); cbn [fst]; apply represents_gate; now apply stands_measure.
Qed.
Lemma meas_order L : lanes_ok L -> let w := World uneven None [false; false] some_numbers in
  unrelated (IGate (CMeas 1 0 false), None) (IGate (CMeas 2 1 false), None) /\
  runs (circuit_update 2 L (fun _ => None) (build meas_calls)) w (done (fun _ w' => w_reg w' = [false; false])) /\
  runs (circuit_update 2 L (fun _ => None) (build meas_calls')) w (done (fun _ w' => w_reg w' = [true; false])).
Proof.
  intros HL w. split; [exact two_apart|].
  assert (Hu : forall k, unit_draw (w_rand w k)) by (intros [|k]; cbn; unfold unit_draw; lra).
  assert (P0 : bit_prob 2 0 false uneven = (9 / 25)%R) by (rewrite prob_q0; unfold uneven; cbn [N.eqb Pos.eqb]; rewrite Cnorm2_R, Cnorm2_0; lra).
  assert (P1 : bit_prob 2 1 false uneven = 1%R) by (rewrite prob_q1; unfold uneven; cbn [N.eqb Pos.eqb]; rewrite !Cnorm2_R; lra).
  split.
  - assert (S1 : shown 2 0 uneven 0 = false) by (unfold shown; rewrite P0; destruct (Rlt_dec 0 (9 / 25)); [reflexivity|lra]).
    set (phi := measured 2 0 false false uneven). assert (Hphi : sqnorm 2 phi = 1%R /\ bit_prob 2 1 false phi = 1%R).
    { rewrite sqnorm_2, prob_q1. unfold phi, measured, projected. rewrite P0. cbn [andb]. cbn [shows_bit N.testbit Bool.eqb]. unfold uneven. cbn. unfold Cnorm2, Cscale, RtoC, C0, Re, Im. cbn [fst snd].
      replace (9 / 25)%R with ((3 / 5) * (3 / 5))%R by lra. rewrite sqrt_square by lra.
      change (shows_bit 0 false 0) with true. change (shows_bit 0 false 1) with false. change (shows_bit 0 false 2) with true. change (shows_bit 0 false 3) with false. cbn [fst snd]. split; field. }
    destruct Hphi as [N1 Q1]. assert (S2 : shown 2 1 phi (9 / 10) = false) by (unfold shown; rewrite Q1; destruct (Rlt_dec (9 / 10) 1); [reflexivity|lra]).
    eapply runs_weaken; [apply (runs_to 2 L _ _ meas_program w [0; 9 / 10]%R (SDone (SState (measured 2 1 false false phi) [false; false]))); try assumption; try reflexivity|].
    + apply meas_is.
    + apply meas_kept. reflexivity.
    + exact uneven_norm.
    + unfold run_program. change (existsb _ _) with false. cbn [instantiate meas_program item_gate].
      apply (exec_gate watch_all 2 _ _ _ [] [0%R] [(9 / 10)%R] _ (SState phi [false; false])); [reflexivity|reflexivity| |].
      * apply meas_step; [reflexivity|exact uneven_norm|]. cbn [s_psi s_reg w w_amp w_reg]. rewrite S1. reflexivity.
      * apply (exec_gate watch_all 2 _ _ _ _ [(9 / 10)%R] [] _ (SState (measured 2 1 false false phi) [false; false])); [reflexivity|reflexivity| |constructor].
        apply meas_step; [reflexivity|exact N1|]. cbn [s_psi s_reg]. rewrite S2. reflexivity.
    + intros [[] w'|w'|] He; cbn [ends_as] in He; try contradiction. exact (proj2 He).
  - assert (S1 : shown 2 1 uneven 0 = false) by (unfold shown; rewrite P1; destruct (Rlt_dec 0 1); [reflexivity|lra]).
    set (phi := measured 2 1 false false uneven). assert (Hphi : sqnorm 2 phi = 1%R /\ bit_prob 2 0 false phi = (9 / 25)%R).
    { rewrite sqnorm_2, prob_q0. unfold phi, measured, projected. rewrite P1. cbn [andb]. unfold uneven. cbn. unfold Cnorm2, Cscale, RtoC, C0, Re, Im. cbn [fst snd].
      rewrite sqrt_1. change (shows_bit 1 false 0) with true. change (shows_bit 1 false 1) with true. change (shows_bit 1 false 2) with false. change (shows_bit 1 false 3) with false. cbn [fst snd]. split; field. }
    destruct Hphi as [N1 Q1]. assert (S2 : shown 2 0 phi (9 / 10) = true) by (unfold shown; rewrite Q1; destruct (Rlt_dec (9 / 10) (9 / 25)); [lra|reflexivity]).
    eapply runs_weaken; [apply (runs_to 2 L _ _ meas_program' w [0; 9 / 10]%R (SDone (SState (measured 2 0 false true phi) [true; false]))); try assumption; try reflexivity|].
    + apply meas_is.
    + apply meas_kept. constructor.
    + exact uneven_norm.
    + unfold run_program. change (existsb _ _) with false. cbn [instantiate meas_program' item_gate].
      apply (exec_gate watch_all 2 _ _ _ [] [0%R] [(9 / 10)%R] _ (SState phi [false; false])); [reflexivity|reflexivity| |].
      * apply meas_step; [reflexivity|exact uneven_norm|]. cbn [s_psi s_reg w w_amp w_reg]. rewrite S1. reflexivity.
      * apply (exec_gate watch_all 2 _ _ _ _ [(9 / 10)%R] [] _ (SState (measured 2 0 false true phi) [true; false])); [reflexivity|reflexivity| |constructor].
        apply meas_step; [reflexivity|exact N1|]. cbn [s_psi s_reg]. rewrite S2. reflexivity.
    + intros [[] w'|w'|] He; cbn [ends_as] in He; try contradiction. exact (proj2 He).
Qed.
Theorem meas_refuted L : lanes_ok L -> exists (c c' : circuit) (w : world),
  rearranged (in_order c) (in_order c') /\ sqnorm 2 (w_amp w) = 1%R /\ (forall k, unit_draw (w_rand w k)) /\
  runs (circuit_update 2 L (fun _ => None) c) w (done (fun _ w' => w_reg w' = [false; false])) /\
  runs (circuit_update 2 L (fun _ => None) c') w (done (fun _ w' => w_reg w' = [true; false])).
Proof.
  intros HL. exists (build meas_calls), (build meas_calls'), (World uneven None [false; false] some_numbers).
  destruct (meas_order L HL) as (H1 & H2 & H3). split; [|split; [exact uneven_norm|]].
  - unfold in_order. destruct (build_spec meas_calls) as [-> ->]. destruct (build_spec meas_calls') as [-> ->]. cbn [meas_calls meas_calls' flat_map says app map fst snd combine].
    apply (rearranged_swap []). exact H1.
  - split; [|split; assumption]. intros [|k]; cbn; unfold unit_draw; lra.
Qed.
