(** Entangled registers; idle qubits; an example. *)
From Coq Require Import Lra Lia Permutation FunctionalExtensionality ZifyBool ZifyN ZifyNat.
From Verif Require Import PlaceProofs PlaceProofs2 PlaceProofs3 PlaceProofs4 PlaceSpec GatesProofs3 GatesProofs5 GatesProofs6 GatesProofs7 GatesProofs8 DensityProofs7 CircuitProofs CircuitProofs2 CircuitProofs3 CircuitProofs4 CircuitProofs5 CircuitProofs9 CircuitProofs10 CircuitProofs17.

Lemma moved_acts n qs g g' : fits_into n qs -> n < 64 -> moved_gate qs g g' -> exists a f, acts g (Act a f).
Proof.
  intros Hfit Hn H. destruct H as [vf vf' k g g' Hty Hmv Hg Hg'|vf vf' k g g' h h' Hty Hmv Hinv Hg Hg' Hh Hh'].
  - exists (call_operands k), (apply_mat (call_targets k) (call_controls k) (call_matrix k)). now apply (acts_factory vf).
  - pose proof (m_small n qs Hfit Hn) as Hms. destruct (acts_spec _ _ (acts_factory vf k g Hty Hg)) as (ak & fk & E & Hwk & _ & Hsemk). injection E as <- <-.
    destruct (Hsemk _ Hms (proj1 Hmv)) as [Hfitk Hfk]. pose proof (make_inverse_ok vf k g Hg Hinv) as Hok.
    assert (Ek : apply_mat (call_targets k) (call_controls k) (call_matrix k) = gate_sem g) by (extensionality psi; extensionality x; apply Hfk).
    exists (call_operands k), (gate_sem h). eapply acts_inverse; try eassumption; intros psi x; rewrite Ek; now apply (gate_sem_inverse (N.of_nat (length qs)) g h).
Qed.
Theorem gate_sliced n qs g g' L L' w' : fits_into n qs -> n < 64 -> lanes_ok L -> lanes_ok L' -> moved_gate qs g g' ->
  runs (elem_update n L' g') w' (done (fun _ w1' => forall x w, x < 2 ^ n ->
    (forall y, y < 2 ^ N.of_nat (length qs) -> w_amp w y = w_amp w' (scatter qs y x)) ->
    runs (elem_update (N.of_nat (length qs)) L g) w (done (fun _ w1 => w_amp w1' x = w_amp w1 (gather qs x))))).
Proof.
  intros Hfit Hn HL HL' Hm. destruct (moved_acts n qs g g' Hfit Hn Hm) as (a & f & Ha). destruct (gate_moved n qs Hfit Hn g g' a f Hm Ha) as (a' & f' & Ha' & Hw).
  destruct (acts_spec _ _ Ha) as (? & ? & E & Hwf & _ & Hs). injection E as <- <-. destruct (acts_spec _ _ Ha') as (? & ? & E & Hwf' & _ & Hs'). injection E as <- <-.
  pose proof (m_small n qs Hfit Hn) as Hms. destruct (Hs _ Hms (sw_lt _ _ _ _ _ Hw)) as [Hf1 Hf2].
  assert (Hlt : Forall (fun q => q < n) a').
  { apply Forall_forall. intros q Hq. apply (sw_ops _ _ _ _ _ Hw) in Hq as (i & Hi & ->). apply (spot_lt n qs Hfit). pose proof (sw_lt _ _ _ _ _ Hw) as Hl. rewrite Forall_forall in Hl. auto. }
  destruct (Hs' n Hn Hlt) as [Hf1' Hf2'].
  eapply runs_weaken; [apply (elem_update_runs n L' g' w' Hn HL' Hwf' Hf1')|]. intros [t w1'|w1'|]; cbn [done]; auto. intros (H1 & _) x w Hx Hsl.
  eapply runs_weaken; [apply (elem_update_runs _ L g w Hms HL Hwf Hf1)|]. intros [t1 w1|w1|]; cbn [done]; auto. intros (H2 & _).
  rewrite H1, H2 by (exact Hx || apply Spec.gather_lt). rewrite <- Hf2', <- Hf2, (sw_move _ _ _ _ _ Hw). apply (sw_local _ _ _ _ _ Hw); [|apply Spec.gather_lt].
  intros y Hy. unfold slice. now rewrite Hsl.
Qed.

(** ** Idle qubits *)
Section Idle.
  Variables (m n : N).
  Hypothesis Hmn : m <= n.
  Let qs := seqN m.
  Lemma idle_length : N.of_nat (length qs) = m.
  Proof. unfold qs. rewrite length_seqN. lia. Qed.
  Lemma idle_fits : fits_into n qs.
  Proof. split; [apply NoDup_seqN|]. apply Forall_forall. intros q Hq. apply in_seqN in Hq. lia. Qed.
  Lemma idle_spot q : q < m -> spot qs q = q.
  Proof.
    intros H. pose proof (spot_nth qs q) as E. rewrite idle_length in E. specialize (E H). unfold qs, seqN in E. rewrite nth_error_map in E.
    destruct (nth_error (seq 0 (N.to_nat m)) (N.to_nat q)) as [k|] eqn:Ek; [|discriminate]. injection E as E. fold (seqN m) in E. fold qs in E. rewrite <- E.
    apply nth_error_nth with (d := 0%nat) in Ek. rewrite seq_nth in Ek by lia. lia.
  Qed.
  Lemma idle_gather x : gather qs x = x mod 2 ^ m.
  Proof.
    apply bits_eq_N. intros k. destruct (N.lt_ge_cases (N.of_nat k) m) as [Hk|Hk].
    - rewrite N.mod_pow2_bits_low by exact Hk. rewrite gather_spot by (rewrite idle_length; exact Hk). now rewrite idle_spot.
    - rewrite N.mod_pow2_bits_high by exact Hk. apply (testbit_high _ m); [|exact Hk]. pose proof (Spec.gather_lt qs x) as Hg. rewrite idle_length in Hg. exact Hg.
  Qed.
  Lemma idle_map l : Forall (fun q => q < m) l -> map (spot qs) l = l.
  Proof. induction 1 as [|q l Hq _ IH]; cbn [map]; [reflexivity|]. now rewrite IH, idle_spot. Qed.
  Lemma idle_mask bf : bf < 2 ^ m -> scatter qs bf 0 = bf.
  Proof.
    intros H. apply N.bits_inj. intros i. destruct (N.lt_ge_cases i m) as [Hi|Hi].
    - rewrite <- (idle_spot i Hi) at 1. apply (scatter_spot n qs idle_fits). rewrite idle_length. exact Hi.
    - rewrite scatter_out by (unfold qs; rewrite in_seqN; lia). rewrite N.bits_0. symmetry. now apply (testbit_high bf m).
  Qed.
  Lemma idle_rest x : x < 2 ^ n -> gather (rest_of n qs) x = x / 2 ^ m.
  Proof.
    intros Hx. assert (E : rest_of n qs = map (fun i => m + i) (seqN (n - m))).
    { unfold rest_of. replace (seqN n) with (seqN m ++ map (fun i => m + i) (seqN (n - m))).
      - rewrite filter_app. rewrite (filter_ext_in _ (fun _ => false) (seqN m)), (filter_ext_in _ (fun _ => true) (map _ _)).
        + assert (F : forall l : list N, filter (fun _ => false) l = []) by (induction l; auto). assert (T : forall l : list N, filter (fun _ => true) l = l) by (induction l; cbn [filter]; congruence). now rewrite F, T.
        + intros q Hq. apply in_map_iff in Hq as (i & <- & _). apply negb_true_iff, not_true_is_false. intros E. apply existsb_exists in E as (j & Hj & E). unfold qs in Hj. apply in_seqN in Hj. apply N.eqb_eq in E. lia.
        + intros q Hq. apply negb_false_iff. apply existsb_exists. exists q. split; [exact Hq|apply N.eqb_refl].
      - unfold seqN. replace (N.to_nat n) with (N.to_nat m + N.to_nat (n - m))%nat by lia. rewrite seq_app, map_app. f_equal. rewrite Nat.add_0_l, map_map.
        replace (N.to_nat m) with (N.to_nat m + 0)%nat by lia. rewrite <- seq_shift_by, map_map. apply map_ext. intros i. lia. }
    rewrite E. apply bits_eq_N. intros k. rewrite gather_tb, N.div_pow2_bits. destruct (N.lt_ge_cases (N.of_nat k) (n - m)) as [Hk|Hk].
    - unfold seqN. rewrite map_map, nth_error_map. rewrite (nth_error_nth' _ 0%nat) by (rewrite seq_length; lia). cbn [option_map]. rewrite seq_nth by lia. f_equal. lia.
    - rewrite (proj2 (nth_error_None _ _)) by (unfold seqN; rewrite !map_length, seq_length; lia). symmetry. apply (testbit_high x n); [exact Hx|lia].
  Qed.
  Lemma idle_controls cs vs vs' : resize_and_check_control_values cs vs = Ok vs' -> Forall (fun c => fst c < m) (with_values cs vs) -> map (spot qs) cs = cs.
  Proof.
    intros Hr H. apply idle_map. destruct (resize_cases cs vs) as [(vs1 & _ & Hl & Hc)|[Hc _]]; [|congruence].
    rewrite <- (values_fst cs vs); [now apply Forall_map|]. destruct vs; [now left|right]. now subst vs1.
  Qed.
  Lemma idle_pauli p : Forall (fun q => q < m) (bits (N.lor (p_bf p) (p_pf p))) -> move_pauli qs p = p.
  Proof.
    intros H. rewrite Forall_forall in H. unfold move_pauli. rewrite !idle_mask; [now destruct p| |]; apply lt_pow2_testbit; intros i Hi; apply not_true_is_false; intros E;
      (assert (i < m); [apply H, in_bits; rewrite N.lor_spec, E; try reflexivity; apply orb_true_r|lia]).
  Qed.
  Lemma idle_move vf k g : make vf k = Ok g -> Forall (fun q => q < m) (call_operands k) -> move qs k = k /\ may_move qs k.
  Proof.
    intros Hg HF. assert (Hsplit : Forall (fun q => q < m) (call_targets k) /\ Forall (fun c => fst c < m) (call_controls k)).
    { unfold call_operands in HF. rewrite Forall_app, Forall_map in HF. exact HF. }
    destruct Hsplit as [Ht Hc]. split.
    - destruct k; cbn [move make call_targets call_controls] in *; try reflexivity;
        try (destruct (resize_and_check_control_values controls control_values) as [vs'| |] eqn:Er; try discriminate;
             rewrite (idle_controls controls control_values vs' Er Hc));
        try (inversion Ht as [|? ? Ht1 Ht2]; subst); try (inversion Ht2; subst);
        rewrite ?idle_spot, ?idle_map, ?idle_pauli by assumption; try reflexivity;
        repeat match goal with H : Forall (fun c => fst c < m) (_ :: _) |- _ => inversion H; subst; clear H end; cbn [fst] in *; rewrite ?idle_spot by assumption; reflexivity.
    - split; [unfold qs; rewrite length_seqN, N2Nat.id; exact HF|]. destruct k; auto. cbn [call_targets] in Ht. intros i Hi. apply idle_spot. rewrite Forall_forall in Ht. apply Ht. now apply in_seqN.
  Qed.
  Lemma idle_gate g a f : acts g (Act a f) -> Forall (fun q => q < m) a -> moved_gate qs g g.
  Proof.
    intros H HF. inversion H as [vf k g0 Hty Hg|vf k g0 g' f0 Hty Hg Hinv Hg' H1 H2]; subst.
    - destruct (idle_move vf k g Hg HF) as [E Hm]. apply (moved_factory qs vf vf k); auto. now rewrite E.
    - destruct (idle_move vf k g0 Hg HF) as [E Hm]. apply (moved_inverse qs vf vf k g0 g0 g g); auto. now rewrite E.
  Qed.
  Lemma operands_combine (dist : list R) (ss : list sgate) : length dist = length ss -> Forall (fun q => q < m) (operands (Choice (combine dist ss))) ->
    Forall (fun s => Forall (fun q => q < m) (operands s)) ss.
  Proof.
    cbn [operands]. revert ss. induction dist as [|d dist IH]; intros [|s ss] Hl HF; try discriminate; constructor; cbn [combine flat_map snd] in HF; apply Forall_app in HF; [tauto|].
    apply IH; [now injection Hl|tauto].
  Qed.
  Lemma idle_elem g s : stands g s -> Forall (fun q => q < m) (operands s) -> moved_elem qs g g.
  Proof.
    revert g s. fix IH 3. intros g s H HF. destruct H as [t g s Ha|q bit reset g Hg|t dist gs ss Hd Hl H2].
    - destruct (acts_shape _ _ Ha) as (a & f & ->). constructor. now apply (idle_gate g a f).
    - inversion HF as [|? ? Hq _]; subst. apply (moved_measure qs q bit reset); auto; [now rewrite idle_length|]. now rewrite idle_spot.
    - constructor. assert (Hall : Forall (fun s => Forall (fun q => q < m) (operands s)) ss).
      { apply (operands_combine dist); [|exact HF]. rewrite Hl. clear -H2. induction H2; cbn [length]; congruence. }
      clear Hl HF. revert gs ss H2 Hall. fix IH2 3. intros gs ss H2. destruct H2 as [|x y l l' Hxy H2]; intros Hall; constructor; inversion Hall; subst.
      + now apply (IH x y).
      + now apply (IH2 l l').
  Qed.
  Lemma idle_pmove vf k g : make_param vf k = Ok g -> Forall (fun q => q < m) (call_operands (pcall_at k 0)) -> pmove qs k = k /\ may_move qs (pcall_at k 0).
  Proof.
    intros Hg HF. destruct (make_param_at vf k g 0 Hg) as [H1 _]. destruct (idle_move vf _ _ H1 HF) as [E Hm]. split; [|exact Hm].
    destruct k; cbn [pcall_at move pmove] in *; injection E; intros; congruence.
  Qed.
  Lemma idle_param g s : pstands g s -> Forall (fun q => q < m) (operands (s 0%R)) -> moved_param qs g g.
  Proof.
    revert g s. fix IH 3. intros g s H HF. destruct H as [g s Hs|vf k g Hty Hg|vf k g g' Hty Hg Hg'|t dist gs ss Hd Hl H2].
    - constructor. now apply (idle_elem g s).
    - destruct (idle_pmove vf k g Hg HF) as [E Hm]. apply (moved_pfactory qs vf vf k); auto. now rewrite E.
    - assert (HF' : Forall (fun q => q < m) (call_operands (pcall_at k 0))) by (destruct k; exact HF).
      destruct (idle_pmove vf k g Hg HF') as [E Hm]. apply (moved_pinverse qs vf vf k g g g' g'); auto. now rewrite E.
    - constructor. assert (Hall : Forall (fun s : R -> sgate => Forall (fun q => q < m) (operands (s 0%R))) ss).
      { apply (proj1 (Forall_map (fun s : R -> sgate => s 0%R) (fun s => Forall (fun q => q < m) (operands s)) ss)). apply (operands_combine dist); [|exact HF]. rewrite map_length, Hl. clear -H2. induction H2; cbn [length]; congruence. }
      clear Hl HF. revert gs ss H2 Hall. fix IH2 3. intros gs ss H2. destruct H2 as [|x y l l' Hxy H2]; intros Hall; constructor; inversion Hall; subst.
      + now apply (IH x y).
      + now apply (IH2 l l').
  Qed.
  Lemma idle_circuit c p : circuit_is c p -> Forall (fun q => q < m) (program_operands p) -> moved_circuit qs c c.
  Proof.
    intros [H _] HF. split; [|reflexivity]. generalize dependent (c_gates c). induction p as [|[si cd] p IH]; intros items H; inversion H as [|i ? items' ? Hi Hr]; subst; constructor.
    - unfold program_operands in HF. cbn [flat_map fst] in HF. apply Forall_app in HF as [HF _]. destruct Hi as [g s Hs|g key s Hs]; constructor.
      + now apply (idle_elem g s).
      + now apply (idle_param _ s).
    - apply IH; [|exact Hr]. unfold program_operands in *. cbn [flat_map fst] in HF. now apply Forall_app in HF.
  Qed.
  Theorem idle_correct phi L L' ps c p w w' : n < 64 -> lanes_ok L -> lanes_ok L' -> circuit_is c p -> Forall (fun q => q < m) (program_operands p) ->
    sqnorm (n - m) phi = 1%R ->
    (forall x, x < 2 ^ n -> w_amp w' x = (w_amp w (x mod 2 ^ m) * phi (x / 2 ^ m))%C) -> w_reg w' = w_reg w -> (forall k, w_rand w' k = w_rand w k) ->
    (forall k, unit_draw (w_rand w k)) ->
    (forall us, Forall unit_draw us -> ~ run_program watch_all m ps p us (SState (w_amp w) (w_reg w)) SOutside) ->
    (exists o, circuit_update m L ps c w o) /\ (exists o', circuit_update n L' ps c w' o') /\
    forall o o', circuit_update m L ps c w o -> circuit_update n L' ps c w' o' ->
      match o, o' with
      | HDone _ w1, HDone _ w1' | HThrown w1, HThrown w1' =>
        (forall x, x < 2 ^ n -> w_amp w1' x = (w_amp w1 (x mod 2 ^ m) * phi (x / 2 ^ m))%C) /\ w_reg w1' = w_reg w1 /\ forall k, w_rand w1' k = w_rand w1 k
      | _, _ => False
      end.
  Proof.
    intros Hn HL HL' Hc HF Hphi Hw1 Hw2 Hw3 Hu Hout.
    assert (Hpl : forall chi x, x < 2 ^ n -> placed n qs chi phi x = (chi (x mod 2 ^ m) * phi (x / 2 ^ m))%C) by (intros chi x Hx; unfold placed; now rewrite idle_gather, idle_rest).
    pose proof (place_correct n qs idle_fits Hn phi L L' ps c c p w w' HL HL' Hc (idle_circuit c p Hc HF)) as H. rewrite idle_length in H.
    destruct (H Hphi) as (H1 & H2 & H3); [|exact Hu|exact Hout|].
    - split; [|split; assumption]. intros x Hx. now rewrite Hpl, Hw1.
    - split; [exact H1|]. split; [exact H2|]. intros o o' Ho Ho'. specialize (H3 o o' Ho Ho').
      destruct o as [t w1|w1|], o' as [t' w1'|w1'|]; try contradiction; destruct H3 as (A & B & D); (split; [|split; assumption]); intros x Hx; rewrite <- Hpl by exact Hx; now apply A.
  Qed.
End Idle.

(** ** An example: the circuit of C26 on qubits 2 and 0 of a 3-qubit register *)
Definition at_X : egate := EStd GX (GBase 1 0 0).
Definition at_H : egate := EStd GH (GBase 4 0 0).
Definition at_RX : pgate := PRot true RotX (GBase 1 0 0) 1.
Definition at_calls : list cop := [OGate (CElem (true, at_H)); OGate (CMeas 4 0 false);
  OCircuit [OCondGate (CElem (true, at_X)) (bit_cond 0 true)]; OParam at_RX "theta"].
Lemma at_moved : fits_into 3 [2; 0] /\ moved_circuit [2; 0] (build ex_calls) (build at_calls).
Proof.
  split.
  - split; [|repeat constructor]. constructor; [intros [H|[]]; discriminate|]. constructor; [intros []|constructor].
  - destruct (build_spec ex_calls) as [E1 E2]. destruct (build_spec at_calls) as [E1' E2']. split; [|rewrite E2, E2'; reflexivity].
    rewrite E1, E1'. cbn [ex_calls at_calls flat_map says app map fst]. repeat apply Forall2_cons; [| | | |apply Forall2_nil]; constructor.
    + constructor. apply (moved_factory _ true true (Call1 GH 0 [] [])); try reflexivity; try exact I. split; [repeat constructor|exact I].
    + apply (moved_measure _ 0 0 false); reflexivity.
    + constructor. apply (moved_factory _ true true (Call1 GX 1 [] [])); try reflexivity; try exact I. split; [repeat constructor|exact I].
    + apply (moved_pfactory _ true true (PCallRot RotX 1 1 [] [])); try reflexivity; try exact I. split; [repeat constructor|exact I].
Qed.
Lemma at_world phi r u : sqnorm 1 phi = 1%R ->
  let w := World ex_zero None r u in let w' := World (placed 3 [2; 0] ex_zero phi) None r u in
  world_placed 3 [2; 0] phi w w' /\ sqnorm (3 - N.of_nat (length [2; 0])) phi = 1%R /\
  forall us, Forall unit_draw us -> ~ run_program watch_all (N.of_nat (length [2; 0])) (fun _ => Some 1%R) ex_program us (SState (w_amp w) (w_reg w)) SOutside.
Proof.
  intros Hphi w w'. split; [split; [reflexivity|split; reflexivity]|]. split; [exact Hphi|]. intros us Hus. now apply (proj2 circuit_example).
Qed.
(** Z on qubit 0 and X on qubit 1, controlled by qubit 2, moved to qubits 3, 0 and 1: X on 0, Z on 3, control 1. *)
Lemma pauli_moved : move [3; 0; 1] (CallPauliRotation (Pauli C1 2 1) 1 [2] []) = CallPauliRotation (Pauli C1 1 8) 1 [1] [] /\
  may_move [3; 0; 1] (CallPauliRotation (Pauli C1 2 1) 1 [2] []) /\ call_valid (CallPauliRotation (Pauli C1 2 1) 1 [2] []).
Proof.
  split; [reflexivity|]. split; [split; [repeat constructor|exact I]|]. vm_compute. repeat split; auto; repeat constructor; try discriminate; intros H; repeat destruct H as [H|H]; try discriminate; contradiction.
Qed.
