(** Running the circuit made of two circuits against running one after the other. *)
From Verif Require Export SequenceSpec.
From Verif Require Import LinearProofs SignalProofs2 ChannelProofs3 ChannelProofs4 ChannelProofs5 OrderProofs4 OptimizeProofs2 OrderProofs CircuitProofs17 CircuitProofs5 CircuitProofs4.
From Coq Require Import ZifyBool ZifyN ZifyNat Lra.

Lemma circuit_both c1 c2 p1 p2 : circuit_is c1 p1 -> circuit_is c2 p2 -> circuit_is (add_circuit c1 c2) (p1 ++ p2).
Proof. intros [A B] [A' B']. split; cbn [add_circuit c_gates c_conds]; rewrite map_app; [now apply Forall2_app|congruence]. Qed.
Lemma touches_less ms ms' g : incl ms' ms -> touches ms g = false -> touches ms' g = false.
Proof.
  intros Hi H. destruct (touches ms' g) eqn:E; [|reflexivity]. apply touches_spec in E. destruct E as (q & Hq & Hg). assert (X : touches ms g = true) by (apply touches_spec; exists q; auto). congruence.
Qed.
Lemma dexec_less n l ms us s e t : dexec n l ms us s e t -> forall ms', incl ms' ms -> exists e', dexec n l ms' us s e' t.
Proof.
  intros H. induction H as [|g c r ms us s ms' s' Hh He IH|g c r ms us vs s s1 ms' s' Hh Ht Hs He IH]; intros m Hi.
  - exists m. constructor.
  - destruct (IH m Hi) as [e He']. exists e. now apply dexec_skip.
  - destruct (IH (unreset_after g m)) as [e He'].
    + destruct g as [|q bit []|]; cbn [unreset_after]; try assumption. intros x [<-|Hx]; [now left|right; auto].
    + exists e. apply dexec_gate with s1; try assumption. now apply touches_less with ms.
Qed.
Lemma run_split n ps p1 p2 us s t : run_program watch_all n ps (p1 ++ p2) us s (SDone t) ->
  exists us1 us2 s1, us = us1 ++ us2 /\ run_program watch_all n ps p1 us1 s (SDone s1) /\ run_program watch_all n ps p2 us2 s1 (SDone t).
Proof.
  unfold run_program. unfold program_operands. rewrite flat_map_app, existsb_app. intros H. destruct (existsb _ (flat_map _ p1)); [destruct H; discriminate|]. destruct (existsb _ (flat_map _ p2)); [destruct H; discriminate|].
  cbn [orb] in H. rewrite (OrderProofs.instantiate_app ps p1 p2) in H. destruct (instantiate ps p1) as [l1|]; [|destruct H; discriminate]. destruct (instantiate ps p2) as [l2|]; [|destruct H; discriminate].
  apply dexec_spec in H. destruct H as [e H]. apply dexec_app in H. destruct H as (us1 & us2 & ms1 & s1 & -> & H1 & H2). exists us1, us2, s1. split; [reflexivity|]. split; [apply dexec_spec; eauto|].
  destruct (dexec_less n l2 _ _ _ _ _ H2 []) as [e' H3]; [intros x []|]. apply dexec_spec. eauto.
Qed.
Lemma run_once n ps c p r us us' s o o' : circuit_is c p -> us = map r (seq 0 (length us)) -> us' = map r (seq 0 (length us')) ->
  run_program watch_all n ps p us s o -> run_program watch_all n ps p us' s o' -> us = us' /\ o = o'.
Proof.
  intros Hc U U' H H'. unfold run_program in *. destruct (existsb _ _); [destruct H as [-> ->], H' as [-> ->]; auto|]. destruct (instantiate ps p) as [l|] eqn:El; [|destruct H as [-> ->], H' as [-> ->]; auto].
  exact (exec_deterministic watch_all n l (instantiate_proper ps p _ l (proj1 Hc) El) [] r us us' s o o' U U' H H').
Qed.
Lemma run_normalised n ps p us s t : norm_kept n ps p -> sqnorm n (s_psi s) = 1%R -> Forall unit_draw us -> run_program watch_all n ps p us s (SDone t) -> sqnorm n (s_psi t) = 1%R.
Proof.
  intros Hk Hs Hu H. unfold run_program in H. destruct (existsb _ _); [destruct H; discriminate|]. destruct (instantiate ps p) as [l|] eqn:El; [|destruct H; discriminate].
  exact (exec_normalised n watch_all l (instantiate_kept n ps p l Hk El) [] us s t Hu Hs H).
Qed.
Lemma drawn_unit r us : (forall k, unit_draw (r k)) -> us = map r (seq 0 (length us)) -> Forall unit_draw us.
Proof. intros Hu ->. apply Forall_forall. intros x Hx. apply in_map_iff in Hx. destruct Hx as (k & <- & _). apply Hu. Qed.
Lemma same_halves {A} (a b c d : list A) : length a = length c -> a ++ b = c ++ d -> a = c /\ b = d.
Proof. revert c. induction a as [|x a IH]; intros [|y c] Hl H; try discriminate; [auto|]. injection Hl as Hl. injection H as -> H. destruct (IH c Hl H) as [-> ->]. auto. Qed.
Section Turn.
  Variables (n L1 L2 : N) (ps : string -> option R) (c1 c2 : circuit) (p1 p2 : program) (w : world).
  Hypotheses (Hn : n < 64) (HL1 : lanes_ok L1) (HL2 : lanes_ok L2) (Hc1 : circuit_is c1 p1) (Hc2 : circuit_is c2 p2) (Hk1 : norm_kept n ps p1) (Hk2 : norm_kept n ps p2)
    (Hs : sqnorm n (w_amp w) = 1%R) (Hu : forall k, unit_draw (w_rand w k)).
  Let s := SState (w_amp w) (w_reg w).
  Lemma turn_runs : runs (in_turn n L1 L2 ps c1 c2) w (fun o => exists us1 so1, run_program watch_all n ps p1 us1 s so1 /\ us1 = map (w_rand w) (seq 0 (length us1)) /\
    match so1 with
    | SDone s1 => exists us2 so2, run_program watch_all n ps p2 us2 s1 so2 /\ us2 = map (fun k => w_rand w (length us1 + k)%nat) (seq 0 (length us2)) /\ ends_as n o so2 /\
        match o with HDone _ w' | HThrown w' => forall k, w_rand w' k = w_rand w (length us1 + (length us2 + k))%nat | HUndefined => True end
    | SThrown _ => exists w', o = HThrown w'
    | SOutside => False
    end).
  Proof.
    eapply runs_bind; [apply (circuit_runs n L1 ps c1 p1 w s Hn HL1 Hc1 (conj (fun x _ => eq_refl) eq_refl) Hu); intros us Hus; now apply program_inside|..].
    - intros [] w1 (us1 & so1 & Hr & [U1 U2] & He). destruct so1 as [s1|s1|]; try contradiction. cbn [ends_as] in He.
      assert (Hs1 : sqnorm n (s_psi s1) = 1%R) by (apply (run_normalised n ps p1 us1 s s1); try assumption; now apply drawn_unit with (w_rand w)).
      assert (Hu1 : forall k, unit_draw (w_rand w1 k)) by (intros k; rewrite U2; apply Hu).
      eapply runs_weaken; [apply (circuit_runs n L2 ps c2 p2 w1 s1 Hn HL2 Hc2 He Hu1); intros us Hus; now apply program_inside|].
      intros o (us2 & so2 & Hr2 & [V1 V2] & He2). exists us1, (SDone s1). split; [exact Hr|]. split; [exact U1|]. exists us2, so2. split; [exact Hr2|]. split; [rewrite V1 at 1; apply map_ext; exact U2|]. split; [exact He2|].
      destruct o as [[] w'|w'|]; [..|exact I]; intros k; rewrite V2; apply U2.
    - intros w1 (us1 & so1 & Hr & [U1 U2] & He). destruct so1 as [s1|s1|]; try contradiction. exists us1, (SThrown s1). eauto.
    - intros (us1 & so1 & Hr & _ & He). destruct so1; contradiction.
  Qed.
  Lemma both_kept : norm_kept n ps (p1 ++ p2).
  Proof. unfold norm_kept in *. now apply Forall_app. Qed.
  Theorem turn_correct L : lanes_ok L ->
    (exists o, circuit_update n L ps (add_circuit c1 c2) w o) /\ (exists o', in_turn n L1 L2 ps c1 c2 w o') /\
    forall o o', circuit_update n L ps (add_circuit c1 c2) w o -> in_turn n L1 L2 ps c1 c2 w o' -> (exists w', o = HDone tt w') -> same_result n o o'.
  Proof.
    intros HL. destruct (circuit_runs n L ps (add_circuit c1 c2) (p1 ++ p2) w s Hn HL (circuit_both c1 c2 p1 p2 Hc1 Hc2) (conj (fun x _ => eq_refl) eq_refl) Hu) as [R1 R2]; [intros us Hus; apply program_inside; auto using both_kept|].
    destruct turn_runs as [T1 T2]. split; [exact R2|]. split; [exact T2|]. intros o o' Ho Ho' (w' & ->). destruct (R1 _ Ho) as (us & so & Hr & [U1 U2] & He). destruct so as [t|t|]; try contradiction. cbn [ends_as] in He.
    destruct (run_split n ps p1 p2 us s t Hr) as (us1 & us2 & s1 & -> & H1 & H2). destruct (T1 o' Ho') as (vs1 & so1 & Hr1 & V1 & Hx).
    rewrite app_length, seq_app, map_app in U1. cbn [Nat.add] in U1. assert (E1 : us1 = map (w_rand w) (seq 0 (length us1)) /\ us2 = map (w_rand w) (seq (length us1) (length us2))).
    { apply same_halves; [now rewrite map_length, seq_length|exact U1]. }
    destruct E1 as [E1 E2]. destruct (run_once n ps c1 p1 (w_rand w) vs1 us1 s so1 _ Hc1 V1 E1 Hr1 H1) as [-> ->]. destruct Hx as (vs2 & so2 & Hr2 & V2 & He2 & Hrand).
    assert (E3 : us2 = map (fun k => w_rand w (length us1 + k)%nat) (seq 0 (length us2))).
    { rewrite E2 at 1. rewrite <- (map_map (fun k => (length us1 + k)%nat) (w_rand w)). f_equal. clear. generalize (length us2) as m. generalize (length us1) as a. intros a m. revert a. change (forall a, seq a m = map (fun k => (a + k)%nat) (seq 0 m)). intros a.
      transitivity (seq (a + 0) m); [f_equal; lia|]. generalize 0%nat. induction m as [|m IH]; intros b; [reflexivity|]. cbn [seq map]. f_equal. rewrite <- IH. f_equal. lia. }
    destruct (run_once n ps c2 p2 (fun k => w_rand w (length us1 + k)%nat) vs2 us2 s1 so2 _ Hc2 V2 E3 Hr2 H2) as [-> ->].
    destruct o' as [[] v|v|]; try contradiction. cbn [ends_as same_result] in *. destruct He as [A B], He2 as [A' B']. split; [intros x Hx; now rewrite A, A'|]. split; [congruence|].
    intros k. rewrite Hrand, U2, app_length. f_equal. lia.
  Qed.
  Theorem turn_orderly L l : lanes_ok L -> Forall (fun q => q < n) (program_operands (p1 ++ p2)) -> instantiate ps (p1 ++ p2) = Some l -> orderly (length (w_reg w)) [] l ->
    forall o o', circuit_update n L ps (add_circuit c1 c2) w o -> in_turn n L1 L2 ps c1 c2 w o' -> same_result n o o' /\ exists w', o = HDone tt w'.
  Proof.
    intros HL HF Hl Ho o o' H H'. destruct (turn_correct L HL) as (_ & _ & T). pose proof (orderly_never_stops n ps _ l (w_amp w) (w_reg w) HF Hl both_kept Hs Ho) as Hns.
    destruct (circuit_runs n L ps (add_circuit c1 c2) (p1 ++ p2) w s Hn HL (circuit_both c1 c2 p1 p2 Hc1 Hc2) (conj (fun x _ => eq_refl) eq_refl) Hu) as [R1 _]; [intros us Hus; apply program_inside; auto using both_kept|].
    destruct (R1 o H) as (us & so & Hr & [U1 U2] & He). destruct (Hns us so (drawn_unit _ _ Hu U1) Hr) as [t ->]. destruct o as [[] w'|?|]; try contradiction. split; [|eauto]. apply T; eauto.
  Qed.
End Turn.
(** ** Measure a qubit, then X on it: refused in one circuit, fine in two *)
Definition first_calls : list cop := [OGate (CMeas 1 0 false)].
Definition second_calls : list cop := [OGate (CElem (true, EStd GX (GBase 1 0 0)))].
Definition first_program : program := [(SFixed (Meas 0 0 false), None)].
Definition second_program : program := [(SFixed (act_of (Call1 GX 0 [] [])), None)].
Lemma first_is : circuit_is (build first_calls) first_program.
Proof. apply build_program. cbn [first_calls flat_map says app first_program]. repeat apply Forall2_cons; try apply Forall2_nil; (split; [|reflexivity]); cbn [fst]; apply represents_gate. now apply stands_measure. Qed.
Lemma second_is : circuit_is (build second_calls) second_program.
Proof. apply build_program. cbn [second_calls flat_map says app second_program]. repeat apply Forall2_cons; try apply Forall2_nil; (split; [|reflexivity]); cbn [fst]; apply represents_gate. exact (noise1_stands GX 0 eq_refl). Qed.
Lemma first_kept ps : norm_kept 1 ps first_program.
Proof. constructor; [|constructor]. split; [intros r; discriminate|]. cbn [fst item_gate]. intros g [= <-]. reflexivity. Qed.
Lemma second_kept ps : norm_kept 1 ps second_program.
Proof. constructor; [|constructor]. split; [intros r; discriminate|]. cbn [fst item_gate]. intros g [= <-]. apply (unitary_act_keeps 1 true _ (EStd GX (GBase 1 0 0))); try reflexivity; try exact I. repeat constructor. Qed.
Theorem turn_refuted n1 ps w L1 L2 L : n1 = 1 -> lanes_ok L1 -> lanes_ok L2 -> lanes_ok L -> sqnorm n1 (w_amp w) = 1%R -> (forall k, unit_draw (w_rand w k)) -> length (w_reg w) = 1%nat ->
  runs (circuit_update n1 L ps (add_circuit (build first_calls) (build second_calls))) w (fun o => exists w', o = HThrown w') /\
  runs (in_turn n1 L1 L2 ps (build first_calls) (build second_calls)) w (fun o => exists w', o = HDone tt w').
Proof.
  intros -> HL1 HL2 HL Hs Hu Hlen. assert (Hn : 1 < 64) by lia. split.
  - eapply runs_weaken; [apply (circuit_runs 1 L ps _ (first_program ++ second_program) w (SState (w_amp w) (w_reg w)) Hn HL (circuit_both _ _ _ _ first_is second_is) (conj (fun x _ => eq_refl) eq_refl) Hu)|].
    + intros us Hus. apply program_inside; auto. apply both_kept; [apply first_kept|apply second_kept].
    + intros o (us & so & Hr & _ & He). assert (Hso : forall t, so <> SDone t).
      { intros t ->. unfold run_program in Hr. change (existsb _ _) with false in Hr. cbn [first_program second_program app instantiate item_gate] in Hr. apply dexec_spec in Hr. destruct Hr as [e Hr].
        apply dexec_one in Hr. destruct Hr as [[Hh _]|(u1 & u2 & s1 & _ & _ & _ & _ & Hr)]; [discriminate|]. apply dexec_one in Hr. destruct Hr as [[Hh _]|(v1 & v2 & s2 & _ & _ & Ht & _)]; [discriminate|]. discriminate. }
      destruct so as [t|t|]; [now elim (Hso t)| |destruct o; contradiction]. destruct o as [[] w'|w'|]; try contradiction. eauto.
  - eapply runs_weaken; [apply (turn_runs 1 L1 L2 ps _ _ first_program second_program w Hn HL1 HL2 first_is second_is (first_kept ps) (second_kept ps) Hs Hu)|].
    intros o (us1 & so1 & Hr1 & V1 & Hx). pose proof (drawn_unit _ _ Hu V1) as Hd1.
    assert (Hh : forall r : list bool, length r = 1%nat -> exists b, holds None r = Ok b) by (intros r _; eexists; reflexivity).
    assert (N1 : never_stops 1 ps first_program (w_amp w) (w_reg w)).
    { apply (orderly_never_stops 1 ps first_program [(Meas 0 0 false, None)]); [repeat constructor|reflexivity|apply first_kept|assumption|]. rewrite Hlen. cbn [orderly bits_exist]. split; [reflexivity|]. split; [exact Hh|]. split; [reflexivity|exact I]. }
    destruct (N1 us1 so1 Hd1 Hr1) as [s1 ->]. destruct Hx as (us2 & so2 & Hr2 & V2 & He & _).
    assert (Hs1 : sqnorm 1 (s_psi s1) = 1%R) by (exact (run_normalised 1 ps first_program us1 (SState (w_amp w) (w_reg w)) s1 (first_kept ps) Hs Hd1 Hr1)).
    assert (N2 : never_stops 1 ps second_program (s_psi s1) (s_reg s1)).
    { apply (orderly_never_stops 1 ps second_program [(act_of (Call1 GX 0 [] []), None)]); [repeat constructor|reflexivity|apply second_kept|assumption|]. cbn [orderly]. split; [exact I|]. split; [intros r _; eexists; reflexivity|]. split; [reflexivity|exact I]. }
    destruct (N2 us2 so2) as [t ->]; [now apply drawn_unit with (fun k => w_rand w (length us1 + k)%nat)|destruct s1; exact Hr2|]. destruct o as [[] w'|w'|]; try contradiction. eauto.
Qed.
Lemma sequence_example ps : circuit_is (build second_calls) second_program /\ circuit_is (build first_calls) first_program /\ norm_kept 1 ps second_program /\ norm_kept 1 ps first_program /\
  Forall (fun q => q < 1) (program_operands (second_program ++ first_program)) /\ exists l, instantiate ps (second_program ++ first_program) = Some l /\ orderly 1 [] l.
Proof.
  split; [exact second_is|]. split; [exact first_is|]. split; [apply second_kept|]. split; [apply first_kept|]. split; [repeat constructor|]. eexists. split; [reflexivity|].
  assert (Hh : forall r : list bool, length r = 1%nat -> exists b, holds None r = Ok b) by (intros r _; eexists; reflexivity).
  split; [exact I|]. split; [exact Hh|]. split; [reflexivity|]. split; [reflexivity|]. split; [exact Hh|]. split; [reflexivity|exact I].
Qed.
