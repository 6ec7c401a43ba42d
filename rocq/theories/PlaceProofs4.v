(** Circuits on other qubits. *)
From Coq Require Import Lra Lia Permutation FunctionalExtensionality ZifyBool ZifyN ZifyNat.
From Verif Require Import PlaceProofs PlaceProofs2 PlaceProofs3 PlaceSpec GatesProofs3 CircuitProofs CircuitProofs2 CircuitProofs3 CircuitProofs4 CircuitProofs5 CircuitProofs17.

Section Circuits.
  Variables (n : N) (qs : list N).
  Hypothesis Hfit : fits_into n qs.
  Hypothesis Hn : n < 64.
  Let m := N.of_nat (length qs).

  Lemma gate_moved_any g g' a f a' f' : moved_gate qs g g' -> acts g (Act a f) -> acts g' (Act a' f') -> slicewise qs a a' f f'.
  Proof.
    intros Hm Ha Ha'. destruct (gate_moved n qs Hfit Hn g g' a f Hm Ha) as (b & h & Hb & Hw).
    destruct (acts_spec _ _ Ha') as (? & ? & E & _ & Ho & Hs). injection E as <- <-.
    destruct (acts_spec _ _ Hb) as (? & ? & E & _ & Ho1 & Hs1). injection E as <- <-.
    assert (Hset : forall q, In q a' <-> In q b) by (intros q; now rewrite <- Ho, Ho1).
    assert (Hltb : Forall (fun q => q < n) b).
    { apply Forall_forall. intros q Hq. apply (sw_ops _ _ _ _ _ Hw) in Hq as (i & Hi & ->). apply (spot_lt n qs Hfit). pose proof (sw_lt _ _ _ _ _ Hw) as Hl. rewrite Forall_forall in Hl. auto. }
    assert (Hlta : Forall (fun q => q < n) a') by (rewrite Forall_forall in *; intros q Hq; apply Hltb; now apply Hset).
    destruct (Hs n Hn Hlta) as [_ Hf]. destruct (Hs1 n Hn Hltb) as [_ Hh]. constructor; try apply Hw.
    - intros q. rewrite Hset. apply Hw.
    - intros chi x. rewrite Hf, <- Hh. apply Hw.
  Qed.
  Lemma gate_moved_acts g g' s : moved_gate qs g g' -> acts g s -> exists s', acts g' s' /\ smoved qs s s'.
  Proof.
    intros Hm Ha. destruct (acts_spec _ _ Ha) as (a & f & -> & _). destruct (gate_moved n qs Hfit Hn g g' a f Hm Ha) as (b & h & Hb & Hw).
    exists (Act b h). split; [exact Hb|now constructor].
  Qed.
  Lemma combine_moved dist ss ss' : Forall2 (smoved qs) ss ss' ->
    Forall2 (fun a b : R * sgate => fst a = fst b /\ smoved qs (snd a) (snd b)) (combine dist ss) (combine dist ss').
  Proof.
    intros H. revert dist. induction H as [|x y l l' Hxy _ IH]; intros [|d dist]; cbn [combine]; constructor; [split; [reflexivity|exact Hxy]|apply IH].
  Qed.
  Lemma elem_moved g g' : moved_elem qs g g' -> forall s, stands g s -> exists s', stands g' s' /\ smoved qs s s'.
  Proof.
    revert g g'. fix IH 3. intros g g' H s Hs. destruct H as [t t' g g' Hg|q bit reset g g' Hq Hg Hg'|t t' dist gs gs' H2].
    - inversion Hs as [? ? ? Ha| q bit reset g0 Hg0|]; subst; [|apply measurement_mask in Hg0 as [_ [=]]].
      destruct (gate_moved_acts g g' s Hg Ha) as (s' & Ha' & Hm). exists s'. split; [now apply stands_act|exact Hm].
    - pose proof (measurement_mask _ _ _ _ Hg) as [Hq64 ->]. inversion Hs as [|q0 bit0 reset0 g0 Hg0|]; subst. apply measurement_mask in Hg0 as [_ [= E -> ->]].
      apply N.pow_inj_r in E; [|lia]. subst q0. exists (Meas (spot qs q) bit0 reset0). split; [now apply stands_measure|now constructor].
    - inversion Hs as [|q0 bit0 reset0 g0 Hg0|? ? ? ss Hd Hl Hgs]; subst; [apply measurement_mask in Hg0 as [_ [=]]|].
      assert (HH : exists ss', Forall2 stands gs' ss' /\ Forall2 (smoved qs) ss ss').
      { clear Hs Hl. revert gs gs' H2 ss Hgs. fix IH2 3. intros gs gs' H2. destruct H2 as [|x y l l' Hxy H2]; intros ss Hgs; inversion Hgs as [|? sx ? sl Hx Hl]; subst.
        - exists []. split; constructor.
        - destruct (IH _ _ Hxy _ Hx) as (sy & Hy & Hm). destruct (IH2 _ _ H2 _ Hl) as (sl' & Hy' & Hm'). exists (sy :: sl'). split; constructor; assumption. }
      destruct HH as (ss' & Hst & Hm). exists (Choice (combine dist ss')). split.
      + apply stands_choice; [exact Hd| |exact Hst]. rewrite Hl. clear -H2. induction H2; cbn [length]; congruence.
      + constructor. now apply combine_moved.
  Qed.
  Lemma pmove_at k v : move qs (pcall_at k v) = pcall_at (pmove qs k) v.
  Proof. destruct k; reflexivity. Qed.
  Lemma may_move_at k v : may_move qs (pcall_at k 0) -> may_move qs (pcall_at k v).
  Proof. destruct k; exact (fun H => H). Qed.
  Lemma inverse_at g h v : p_inverse g = Ok h -> match g with PProb _ _ _ => False | _ => True end -> pgate_at h v = pgate_at g (- v) /\ match h with PProb _ _ _ => False | _ => True end.
  Proof.
    intros H Hp. pose proof (p_inverse_at g h H Hp) as Hrel. destruct g, h; try contradiction; destruct Hrel as (-> & -> & ->); cbn [pgate_at];
      (replace (pcoef * - v)%R with (- pcoef * v)%R by ring); auto.
  Qed.
  Lemma acts_shape g s : acts g s -> exists a f, s = Act a f.
  Proof. intros H. destruct (acts_spec _ _ H) as (a & f & -> & _). eauto. Qed.
  Lemma acts_moved g g' s s' : moved_gate qs g g' -> acts g s -> acts g' s' -> smoved qs s s'.
  Proof.
    intros Hm Ha Ha'. destruct (acts_shape _ _ Ha) as (a & f & ->). destruct (acts_shape _ _ Ha') as (a' & f' & ->). constructor. now apply (gate_moved_any g g').
  Qed.
  Lemma param_moved g g' : moved_param qs g g' -> forall s, pstands g s -> exists s', pstands g' s' /\ forall v, smoved qs (s v) (s' v).
  Proof.
    revert g g'. fix IH 3. intros g g' H s Hs. destruct H as [g g' Hg|vf vf' k g g' Hty Hmv Hg Hg'|vf vf' k g g' h h' Hty Hmv Hg Hg' Hh Hh'|t t' dist gs gs' H2].
    - inversion Hs as [g0 s0 Hst| | |]; subst. destruct (elem_moved g g' Hg s0 Hst) as (s' & Hs' & Hm). exists (fun _ => s'). split; [now constructor|auto].
    - assert (Hty' : pcall_typed (pmove qs k)) by (unfold pcall_typed; rewrite <- pmove_at; now apply (move_typed n qs Hfit Hn)).
      exists (fun v => act_of (pcall_at (pmove qs k) v)). split; [now apply (pstands_factory vf')|]. intros v.
      destruct (make_param_at vf k g v Hg) as [H1 H2]. destruct (make_param_at vf' _ g' v Hg') as [H1' H2'].
      apply (acts_moved (pgate_at g v) (pgate_at g' v)).
      + apply (moved_factory qs vf vf' (pcall_at k v)); [now apply pcall_typed_at|now apply may_move_at|exact H1|now rewrite pmove_at].
      + now apply pacts_at.
      + apply (pacts_at g' (fun v => act_of (pcall_at (pmove qs k) v))); [now apply (pstands_factory vf')|exact H2'].
    - assert (Hty' : pcall_typed (pmove qs k)) by (unfold pcall_typed; rewrite <- pmove_at; now apply (move_typed n qs Hfit Hn)).
      assert (Hst' : pstands (inr h') (fun v => act_of (pcall_at (pcall_opposite (pmove qs k)) v))) by (now apply (pstands_inverse vf' _ g')).
      eexists. split; [exact Hst'|]. intros v.
      destruct (make_param_at vf k g (- v) Hg) as [H1 H2]. destruct (make_param_at vf' _ g' (- v) Hg') as [H1' H2'].
      destruct (inverse_at g h v Hh H2) as [E Hp]. destruct (inverse_at g' h' v Hh' H2') as [E' Hp'].
      apply (acts_moved (pgate_at h v) (pgate_at h' v)).
      + rewrite E, E'. apply (moved_factory qs vf vf' (pcall_at k (- v))); [now apply pcall_typed_at|now apply may_move_at|exact H1|now rewrite pmove_at].
      + now apply pacts_at.
      + now apply (pacts_at h' _ v Hst').
    - apply pstands_choice_inv in Hs as (ss & Hd & Hl & Hgs & ->).
      assert (HH : exists ss', Forall2 pstands gs' ss' /\ Forall2 (fun s s' => forall v, smoved qs (s v) (s' v)) ss ss').
      { clear Hl. revert gs gs' H2 ss Hgs. fix IH2 3. intros gs gs' H2. destruct H2 as [|x y l l' Hxy H2]; intros ss Hgs; inversion Hgs as [|? sx ? sl Hx Hl]; subst.
        - exists []. split; constructor.
        - destruct (IH _ _ Hxy _ Hx) as (sy & Hy & Hm). destruct (IH2 _ _ H2 _ Hl) as (sl' & Hy' & Hm'). exists (sy :: sl'). split; constructor; assumption. }
      destruct HH as (ss' & Hst & Hm). exists (fun v => Choice (combine dist (map (fun s => s v) ss'))). split.
      + apply pstands_choice; [exact Hd| |exact Hst]. rewrite Hl. clear -H2. induction H2; cbn [length]; congruence.
      + intros v. constructor. apply combine_moved. clear -Hm. induction Hm as [|x y l l' Hxy _ IH]; cbn [map]; constructor; auto.
  Qed.
  (** ** Programs *)
  Inductive imoved : sitem -> sitem -> Prop :=
  | imoved_fixed s s' : smoved qs s s' -> imoved (SFixed s) (SFixed s')
  | imoved_keyed key s s' : (forall v, smoved qs (s v) (s' v)) -> imoved (SKeyed key s) (SKeyed key s').
  Definition pmoved (p p' : program) : Prop := Forall2 (fun a b => imoved (fst a) (fst b) /\ snd a = snd b) p p'.
  Lemma items_moved items items' : Forall2 (moved_item qs) items items' -> forall p, Forall2 represents items (map fst p) ->
    exists p', Forall2 represents items' (map fst p') /\ pmoved p p'.
  Proof.
    induction 1 as [|i i' items items' Hi _ IH]; intros p Hp; inversion Hp as [|? si ? ss Hr Hrs Ea Eb]; subst.
    - destruct p; [|discriminate]. exists []. split; constructor.
    - destruct p as [|[si0 c] p]; [discriminate|]. injection Eb as -> ->. destruct (IH p Hrs) as (p' & Hp' & Hm).
      assert (HH : exists si', represents i' si' /\ imoved si0 si').
      { destruct Hi as [g g' Hg|key g g' Hg]; inversion Hr as [? s Hs|? ? s Hs]; subst.
        - destruct (elem_moved g g' Hg s Hs) as (s' & Hs' & Hm'). exists (SFixed s'). split; now constructor.
        - destruct (param_moved _ _ Hg s Hs) as (s' & Hs' & Hm'). exists (SKeyed key s'). split; now constructor. }
      destruct HH as (si' & Hr' & Hi'). exists ((si', c) :: p'). split; constructor; auto.
  Qed.
  Lemma circuit_moved c c' p : moved_circuit qs c c' -> circuit_is c p -> exists p', circuit_is c' p' /\ pmoved p p'.
  Proof.
    intros [H E] [Hr Hc]. destruct (items_moved _ _ H p Hr) as (p' & Hr' & Hm). exists p'. split; [|exact Hm]. split; [exact Hr'|].
    rewrite <- E, Hc. clear -Hm. induction Hm as [|a b l l' [_ E] _ IH]; cbn [map]; congruence.
  Qed.
  Lemma program_lt p p' : pmoved p p' -> existsb (fun q => m <=? q) (program_operands p) = false /\ existsb (fun q => n <=? q) (program_operands p') = false.
  Proof.
    induction 1 as [|[i c] [i' c'] p p' [Hi _] _ [IH1 IH2]]; [split; reflexivity|]. unfold program_operands in *. cbn [flat_map fst] in *. rewrite !existsb_app, IH1, IH2, !orb_false_r.
    assert (HH : exists g g', item_operands i = operands g /\ item_operands i' = operands g' /\ smoved qs g g').
    { destruct Hi as [s s' H|key s s' H]; cbn [item_operands]; eauto 6. }
    destruct HH as (g & g' & -> & -> & Hg). destruct (smoved_operands qs g g' Hg) as [Hlt Hops]. rewrite Forall_forall in Hlt.
    split; apply not_true_is_false; intros E; apply existsb_exists in E as (q & Hq & E).
    - apply Hlt in Hq. unfold m in E. lia.
    - apply Hops in Hq as (j & Hj & ->). apply Hlt in Hj. pose proof (spot_lt n qs Hfit j Hj). lia.
  Qed.
  Lemma instantiate_moved ps p p' : pmoved p p' ->
    match instantiate ps p, instantiate ps p' with Some l, Some l' => lmoved qs l l' | None, None => True | _, _ => False end.
  Proof.
    induction 1 as [|[i c] [i' c'] p p' [Hi E] _ IH]; cbn [instantiate]; [constructor|]. cbn [fst snd] in *. subst c'.
    assert (HH : match item_gate ps i, item_gate ps i' with Some g, Some g' => smoved qs g g' | None, None => True | _, _ => False end).
    { destruct Hi as [s s' H|key s s' H]; cbn [item_gate]; [exact H|]. destruct (ps key); auto. }
    destruct (item_gate ps i), (item_gate ps i'); try contradiction; [|exact I]. destruct (instantiate ps p), (instantiate ps p'); try contradiction; [|exact I].
    constructor; auto.
  Qed.
  Lemma run_moved phi ps p p' us s s' o' : sqnorm (n - m) phi = 1%R -> pmoved p p' -> splaced n qs phi s s' -> run_program watch_all n ps p' us s' o' ->
    exists o, run_program watch_all m ps p us s o /\ oplaced n qs phi o o'.
  Proof.
    intros Hphi Hp Hs Hr. unfold run_program in *. destruct (program_lt p p' Hp) as [-> E]. rewrite E in Hr. pose proof (instantiate_moved ps p p' Hp) as Hi.
    destruct (instantiate ps p) as [l|], (instantiate ps p') as [l'|]; try contradiction.
    - apply (exec_placed n qs Hfit phi Hphi watch_all l l' Hi [] [] us s s' o'); [split; constructor|exact Hs|exact Hr].
    - destruct Hr as [-> ->]. exists (SThrown s). split; [auto|exact Hs].
  Qed.
  Theorem place_correct phi L L' ps c c' p w w' : lanes_ok L -> lanes_ok L' -> circuit_is c p -> moved_circuit qs c c' ->
    sqnorm (n - m) phi = 1%R -> world_placed n qs phi w w' -> (forall k, unit_draw (w_rand w k)) ->
    (forall us, Forall unit_draw us -> ~ run_program watch_all m ps p us (SState (w_amp w) (w_reg w)) SOutside) ->
    (exists o, circuit_update m L ps c w o) /\ (exists o', circuit_update n L' ps c' w' o') /\
    forall o o', circuit_update m L ps c w o -> circuit_update n L' ps c' w' o' -> same_ending n qs phi o o'.
  Proof.
    intros HL HL' Hc Hm Hphi (Hw1 & Hw2 & Hw3) Hu Hout. destruct (circuit_moved c c' p Hm Hc) as (p' & Hc' & Hp).
    set (s := SState (w_amp w) (w_reg w)) in *. set (s' := SState (w_amp w') (w_reg w')).
    assert (Hs : splaced n qs phi s s') by (split; assumption).
    assert (Hms : m < 64) by (apply (m_small n qs Hfit Hn)).
    assert (Hu' : forall k, unit_draw (w_rand w' k)) by (intros k; rewrite Hw3; apply Hu).
    pose proof (circuit_runs m L ps c p w s Hms HL Hc (conj (fun x _ => eq_refl) eq_refl) Hu Hout) as [R1 R2].
    assert (Hout' : forall us, Forall unit_draw us -> ~ run_program watch_all n ps p' us s' SOutside).
    { intros us Hus Hr. destruct (run_moved phi ps p p' us s s' SOutside Hphi Hp Hs Hr) as ([| |] & Ho & Hoo); try contradiction. now apply (Hout us). }
    pose proof (circuit_runs n L' ps c' p' w' s' Hn HL' Hc' (conj (fun x _ => eq_refl) eq_refl) Hu' Hout') as [R1' R2'].
    split; [exact R2|]. split; [exact R2'|]. intros o o' Ho Ho'. destruct (R1 o Ho) as (us & so & Hr & Hus & He). destruct (R1' o' Ho') as (us' & so' & Hr' & Hus' & He').
    destruct (run_moved phi ps p p' us' s s' so' Hphi Hp Hs Hr') as (so1 & Hr1 & Hpl).
    assert (Eq : us = us' /\ so = so1).
    { unfold run_program in Hr, Hr1. destruct (existsb _ _); [destruct Hr as [-> ->], Hr1 as [-> ->]; auto|].
      destruct (instantiate ps p) as [l|] eqn:El; [|destruct Hr as [-> ->], Hr1 as [-> ->]; auto].
      apply (exec_deterministic watch_all m l (instantiate_proper ps p _ l (proj1 Hc) El) [] (w_rand w) us us' s so so1); [apply Hus| |exact Hr|exact Hr1].
      destruct Hus' as [Hus' _]. rewrite Hus' at 1. apply map_ext. exact Hw3. }
    destruct Eq as [-> ->].
    assert (Hfin : forall wo wo' t t', same_state m wo t -> same_state n wo' t' -> splaced n qs phi t t' ->
      (forall i, w_rand wo i = w_rand w (length us' + i)) -> (forall i, w_rand wo' i = w_rand w' (length us' + i)) -> world_placed n qs phi wo wo').
    { intros wo wo' t t' [A1 A2] [B1 B2] [C1 C2] D1 D2. split; [|split].
      - intros x Hx. rewrite B1, C1 by exact Hx. unfold placed. rewrite A1; [reflexivity|]. apply Spec.gather_lt.
      - congruence.
      - intros k. now rewrite D1, D2, Hw3. }
    destruct Hus as [_ Hus], Hus' as [_ Hus'].
    destruct o as [[] wo|wo|], so1 as [t|t|]; try contradiction; destruct o' as [[] wo'|wo'|], so' as [t'|t'|]; try contradiction; cbn [ends_as oplaced same_ending] in *;
      apply (Hfin wo wo' t t'); assumption.
  Qed.
End Circuits.
