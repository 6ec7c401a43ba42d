(** Deferred measurement in circuits. *)
From Verif Require Export DeferProofs.
From Verif Require Import ChannelProofs5.
From Coq Require Import ZifyBool ZifyN ZifyNat Lra Permutation.

Lemma operands_more q v k k' : one_more_control q v k k' -> forall i, In i (call_operands k') <-> i = q \/ In i (call_operands k).
Proof.
  intros (_ & Et & Ec & _) i. unfold call_operands. rewrite Et, !in_app_iff. assert (P := Permutation_map fst Ec). cbn [map fst] in P. split; intros [H|H]; auto.
  - apply (Permutation_in i P) in H. destruct H; auto.
  - right. apply (Permutation_in i (Permutation_sym P)). left. auto.
  - destruct H as [H|H]; [now left|]. right. apply (Permutation_in i (Permutation_sym P)). now right.
Qed.
Lemma item_operands_more q v i i' : controlled_item q v i i' -> forall x, In x (item_operands i') <-> x = q \/ In x (item_operands i).
Proof. intros [k k' H|key k k' H]; cbn [item_operands operands act_of]; [now apply operands_more with v|]. exact (operands_more q v _ _ (H 0%R)). Qed.
Lemma item_more q v i i' ps : controlled_item q v i i' ->
  (item_gate ps i = None /\ item_gate ps i' = None) \/ exists k k', one_more_control q v k k' /\ item_gate ps i = Some (act_of k) /\ item_gate ps i' = Some (act_of k').
Proof.
  intros [k k' H|key k k' H]; cbn [item_gate]; [right; eauto|]. destruct (ps key) as [a|]; [right|now left]. exists (pcall_at k a), (pcall_at k' a). auto.
Qed.
Lemma orderly_defer m q v k k' bit reset ms l : one_more_control q v k k' ->
  orderly m ms ((Meas q bit reset, None) :: (act_of k, Some (bit_cond bit v)) :: l) -> orderly m ms ((act_of k', None) :: (Meas q bit reset, None) :: l).
Proof.
  intros Hk (H1 & H2 & H3 & H4 & H5 & H6 & H7). cbn [bits_exist act_of orderly] in *. repeat split; try assumption.
  - apply (proj2 (touches_more q v k k' Hk ms)). split.
    + destruct reset; [exact H6|]. change ((existsb (N.eqb q) (call_operands k) || touches ms (act_of k))%bool = false) in H6. now apply orb_false_elim in H6.
    + now apply (touches_meas q ms bit reset).
Qed.
Lemma orderly_context m l1 : forall ms l l', (forall ms, orderly m ms l -> orderly m ms l') -> orderly m ms (l1 ++ l) -> orderly m ms (l1 ++ l').
Proof.
  induction l1 as [|[g c] l1 IH]; intros ms l l' H Ho; [now apply H|]. cbn [app orderly] in *. destruct Ho as (A & B & D & E). repeat split; try assumption. now apply IH with l.
Qed.
Lemma dexec_context n l1 l l' l2 : (forall ms us s ms' s', dexec n l' ms us s ms' s' -> dexec n l ms us s ms' s') ->
  forall ms us s ms' s', dexec n (l1 ++ l' ++ l2) ms us s ms' s' -> dexec n (l1 ++ l ++ l2) ms us s ms' s'.
Proof.
  intros H ms us s ms' s'. rewrite !dexec_app. intros (us1 & us2 & ms1 & s1 & -> & H1 & H2). exists us1, us2, ms1, s1. split; [reflexivity|]. split; [assumption|].
  rewrite dexec_app in *. destruct H2 as (vs1 & vs2 & ms2 & s2 & -> & H2 & H3). exists vs1, vs2, ms2, s2. auto.
Qed.

Section Program.
  Variables (n : N) (ps : string -> option R).
  Definition follows (p p' : program) : Prop :=
    norm_kept n ps p' /\ (forall x, In x (program_operands p') <-> In x (program_operands p)) /\
    match instantiate ps p, instantiate ps p' with
    | Some l, Some l' => (forall ms us s ms' s', dexec n l' ms us s ms' s' -> dexec n l ms us s ms' s') /\ (forall m ms, orderly m ms l -> orderly m ms l')
    | None, None => True
    | _, _ => False
    end.
  Lemma deferred_follows p p' : deferred p p' -> norm_kept n ps p -> follows p p'.
  Proof.
    induction 1 as [p|p1 q bit reset v i i' p2 Hi|p p' p'' _ IH1 _ IH2]; intros Hk.
    - split; [assumption|]. split; [reflexivity|]. destruct (instantiate ps p); auto.
    - pose proof (item_more q v i i' ps Hi) as Hm. unfold norm_kept in Hk. apply Forall_app in Hk. destruct Hk as [K1 Hk]. inversion Hk as [|? ? Km Hk0]; subst. inversion Hk0 as [|? ? [_ Ki] K2]; subst. cbn [fst snd] in Ki.
      split; [|split].
      + apply Forall_app. split; [assumption|]. constructor; [|now constructor]. split; [intros r; discriminate|]. cbn [fst]. intros g Hg.
        destruct Hm as [[_ E]|(k & k' & H & E & E')]; [congruence|]. rewrite E' in Hg. injection Hg as <-. specialize (Ki _ E). cbn [keeps_norm act_of] in *. intros psi. now apply (controlled_keeps n q v k k' H).
      + intros x. unfold program_operands. rewrite !flat_map_app, !in_app_iff. cbn [flat_map fst item_operands operands]. rewrite !in_app_iff, (item_operands_more q v i i' Hi). cbn [In]. intuition.
      + rewrite !OrderProofs.instantiate_app. cbn [instantiate item_gate]. destruct Hm as [[E E']|(k & k' & H & E & E')]; rewrite E, E'; destruct (instantiate ps p1) as [l1|], (instantiate ps p2) as [l2|]; try exact I.
        specialize (Ki _ E). split.
        * apply (dexec_context n l1 [(Meas q bit reset, None); (act_of k, Some (bit_cond bit v))] [(act_of k', None); (Meas q bit reset, None)] l2). intros. eapply defer_step; [exact H|exact Ki|eassumption].
        * intros m ms. apply (orderly_context m l1 ms ((Meas q bit reset, None) :: (act_of k, Some (bit_cond bit v)) :: l2)). intros ms0. now apply orderly_defer.
    - destruct (IH1 Hk) as (K1 & O1 & D1). destruct (IH2 K1) as (K2 & O2 & D2). split; [assumption|]. split; [intros x; now rewrite O2, O1|].
      destruct (instantiate ps p) as [l|], (instantiate ps p') as [l'|], (instantiate ps p'') as [l''|]; try contradiction; auto. destruct D1, D2. auto.
  Qed.
End Program.
Lemma same_members_existsb (f : N -> bool) l l' : (forall x, In x l' <-> In x l) -> existsb f l' = existsb f l.
Proof. intros H. apply eq_iff_eq_true. rewrite !existsb_exists. split; intros (x & Hx & E); exists x; (split; [now apply H|assumption]). Qed.

(** the run returned *)
Theorem deferred_correct n L L' ps c c' p p' w : n < 64 -> lanes_ok L -> lanes_ok L' -> circuit_is c p -> circuit_is c' p' -> norm_kept n ps p -> deferred p p' ->
  sqnorm n (w_amp w) = 1%R -> (forall k, unit_draw (w_rand w k)) ->
  (exists o, circuit_update n L ps c w o) /\ (exists o', circuit_update n L' ps c' w o') /\
  forall o o', circuit_update n L ps c w o -> circuit_update n L' ps c' w o' -> (exists w', o' = HDone tt w') -> same_result n o o'.
Proof.
  intros Hn HL HL' Hc Hc' Hk Hd Hnorm Hu. set (s := SState (w_amp w) (w_reg w)). destruct (deferred_follows n ps p p' Hd Hk) as (Hk' & Hop & Hd').
  assert (Hout : forall q, norm_kept n ps q -> forall us, Forall unit_draw us -> ~ run_program watch_all n ps q us s SOutside) by (intros q Hq us Hus; now apply program_inside).
  pose proof (circuit_runs n L ps c p w s Hn HL Hc (conj (fun x _ => eq_refl) eq_refl) Hu (Hout p Hk)) as [R1 R2].
  pose proof (circuit_runs n L' ps c' p' w s Hn HL' Hc' (conj (fun x _ => eq_refl) eq_refl) Hu (Hout p' Hk')) as [R1' R2'].
  split; [exact R2|]. split; [exact R2'|]. intros o o' Ho Ho' (w' & ->). destruct (R1 o Ho) as (us & so & Hr & [U1 U2] & He). destruct (R1' _ Ho') as (us' & so' & Hr' & [U1' U2'] & He').
  destruct so' as [t|t|]; try contradiction. cbn [ends_as] in He'.
  assert (Hrun : run_program watch_all n ps p us' s (SDone t)).
  { unfold run_program in *. rewrite <- (same_members_existsb _ _ _ Hop). destruct (existsb _ (program_operands p')); [destruct Hr'; discriminate|].
    destruct (instantiate ps p) as [l|], (instantiate ps p') as [l'|]; try contradiction; [|destruct Hr'; discriminate]. destruct Hd' as [Hd' _].
    rewrite dexec_spec in *. destruct Hr' as [ms H]. exists ms. now apply Hd'. }
  assert (E : us = us' /\ so = SDone t).
  { unfold run_program in Hr, Hrun. destruct (existsb _ _); [destruct Hrun; discriminate|]. destruct (instantiate ps p) as [l|] eqn:El; [|destruct Hrun; discriminate].
    exact (exec_deterministic watch_all n l (instantiate_proper ps p _ l (proj1 Hc) El) [] (w_rand w) us us' s so _ U1 U1' Hr Hrun). }
  destruct E as [-> ->]. destruct o as [[] wo|wo|]; try contradiction. cbn [ends_as same_result] in *. destruct He as [A1 A2], He' as [B1 B2]. split; [intros x Hx; now rewrite A1, B1|]. split; [congruence|]. intros k. now rewrite U2, U2'.
Qed.
(** both circuits run to the end *)
Theorem deferred_orderly n L L' ps c c' p p' l w : n < 64 -> lanes_ok L -> lanes_ok L' -> circuit_is c p -> circuit_is c' p' -> norm_kept n ps p -> deferred p p' ->
  Forall (fun q => q < n) (program_operands p) -> instantiate ps p = Some l -> orderly (length (w_reg w)) [] l ->
  sqnorm n (w_amp w) = 1%R -> (forall k, unit_draw (w_rand w k)) ->
  exists w1 w2, circuit_update n L ps c w (HDone tt w1) /\ circuit_update n L' ps c' w (HDone tt w2) /\
  forall o o', circuit_update n L ps c w o -> circuit_update n L' ps c' w o' -> same_result n o o' /\ exists w', o = HDone tt w'.
Proof.
  intros Hn HL HL' Hc Hc' Hk Hd HF Hl Ho Hnorm Hu. destruct (deferred_correct n L L' ps c c' p p' w Hn HL HL' Hc Hc' Hk Hd Hnorm Hu) as ((o & H1) & (o' & H2) & H3).
  destruct (deferred_follows n ps p p' Hd Hk) as (Hk' & Hop & Hd'). rewrite Hl in Hd'. destruct (instantiate ps p') as [l'|] eqn:El'; [|contradiction]. destruct Hd' as [_ Ho'].
  assert (HF' : Forall (fun q => q < n) (program_operands p')) by (rewrite Forall_forall in *; intros x Hx; apply HF; now apply Hop).
  pose proof (orderly_never_stops n ps p' l' (w_amp w) (w_reg w) HF' El' Hk' Hnorm (Ho' _ _ Ho)) as Hns.
  assert (Hret : forall o', circuit_update n L' ps c' w o' -> exists w', o' = HDone tt w').
  { intros o1 H1'. pose proof (circuit_runs n L' ps c' p' w (SState (w_amp w) (w_reg w)) Hn HL' Hc' (conj (fun x _ => eq_refl) eq_refl) Hu) as R.
    destruct R as [R _]; [intros us Hus; now apply program_inside|]. destruct (R o1 H1') as (us & so & Hr & [U1 _] & He). destruct (Hns us so) as [t ->]; [rewrite U1; apply Forall_forall; intros u Hu0; apply in_map_iff in Hu0; destruct Hu0 as (k & <- & _); apply Hu|exact Hr|].
    destruct o1 as [[] w1|w1|]; try contradiction. eauto. }
  assert (Hsame : forall o o', circuit_update n L ps c w o -> circuit_update n L' ps c' w o' -> same_result n o o' /\ exists w', o = HDone tt w').
  { intros o1 o2 H1' H2'. destruct (Hret o2 H2') as [w2 ->]. pose proof (H3 o1 _ H1' H2' (ex_intro _ w2 eq_refl)) as S. split; [exact S|]. destruct o1 as [[] w1|w1|]; cbn in S; try contradiction. eauto. }
  destruct (Hret o' H2) as [w2 ->]. destruct (Hsame o _ H1 H2) as [_ [w1 ->]]. eauto 6.
Qed.
