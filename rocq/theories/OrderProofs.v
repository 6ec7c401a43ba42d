(** Exchanging neighbouring gates on different qubits. *)
From Verif Require Export OrderSpec OptimizeProofs3 CircuitProofs5.
From Coq Require Import ZifyBool ZifyN ZifyNat Permutation Lra.

Lemma upto_swap_conditional n qs f c rs g d : acts_on qs f -> acts_on rs g -> (forall i, In i qs -> ~ In i rs) ->
  upto n 0 [(Act qs f, c); (Act rs g, d)] [(Act rs g, d); (Act qs f, c)].
Proof.
  intros Hf Hg Hd ms us s ms' s'. rewrite turn_0.
  assert (One : forall qs f c r ms us s ms' s', dexec n ((Act qs f, c) :: r) ms us s ms' s' <->
    (holds c (s_reg s) = Ok false /\ dexec n r ms us s ms' s') \/
    (holds c (s_reg s) = Ok true /\ touches ms (Act qs f) = false /\ dexec n r ms us (SState (f (s_psi s)) (s_reg s)) ms' s')).
  { clear. intros. rewrite dexec_one. split.
    - intros [H|(us1 & us2 & s1 & -> & Hc & Ht & Hs & H)]; [now left|]. inversion Hs; subst. right. auto.
    - intros [H|(Hc & Ht & H)]; [now left|]. right. exists [], us, (SState (f (s_psi s)) (s_reg s)). split; [reflexivity|]. split; [assumption|]. split; [assumption|]. split; [constructor|assumption]. }
  repeat setoid_rewrite One. cbn [s_psi s_reg]. rewrite (acts_on_comm qs rs f g (s_psi s) Hf Hg Hd). intuition congruence.
Qed.

Section Program.
  Variables (n : N) (ps : string -> option R).
  Hypothesis Hn : n < 64.
  (** a program item that some circuit item stands for *)
  Definition known (x : citem * option cond) (y : sitem * option cond) : Prop := represents (fst x) (fst y) /\ snd x = snd y.
  Definition kept (y : sitem * option cond) : Prop := cond_defined (snd y) /\ forall g, item_gate ps (fst y) = Some g -> keeps_norm n g.
  Definition below (y : sitem * option cond) : Prop := Forall (fun q => q < n) (item_operands (fst y)).

  Lemma known_local x y g : known x y -> below y -> item_gate ps (fst y) = Some g -> local g.
  Proof.
    intros [H _] Hb Hg. destruct x as [i f], y as [j f']. unfold below in Hb. cbn [fst snd] in *. destruct H as [g0 s H|g0 key s H]; cbn [item_gate item_operands] in *.
    - injection Hg as <-. now apply (stands_local n g0).
    - destruct (ps key) as [v|] eqn:E; [|discriminate]. injection Hg as <-. apply (pstands_local n g0 Hn s v H).
      pose proof (item_mask_operands (IParam g0 key) (SKeyed key s)) as M1. pose proof (item_mask_spec ps (IParam g0 key) (SKeyed key s) (s v) (represents_param g0 key s H)) as M2.
      cbn [item_gate] in M2. rewrite E in M2. rewrite Forall_forall in *. intros q Hq. apply Hb.
      apply (M1 q (represents_param g0 key s H)). now apply (M2 eq_refl).
  Qed.
  Lemma known_act x y g : known x y -> below y -> fixed_action (fst x) -> item_gate ps (fst y) = Some g ->
    exists qs f, g = Act qs f /\ acts_on qs f.
  Proof.
    intros Hk Hb Hf Hg. pose proof (known_local x y g Hk Hb Hg) as Hl. destruct Hk as [H _]. destruct x as [i f], y as [j f']. cbn [fst snd] in *.
    assert (Ha : exists qs h, g = Act qs h); [|destruct Ha as (qs & h & ->); now exists qs, h].
    destruct H as [g0 s H|g0 key s H]; cbn [item_gate fixed_action] in *.
    - injection Hg as <-. destruct g0 as [[t e]| |]; try contradiction. inversion H as [? ? ? Ha|? ? ? ? Hm|]; subst; [|unfold make_measurement in Hm; inv_bind Hm; inv_bind Hm; discriminate Hm].
      destruct (acts_spec e s Ha) as (qs & h & -> & _). eauto.
    - destruct (ps key) as [v|]; [|discriminate]. injection Hg as <-. destruct g0; try contradiction;
        destruct (acts_spec _ _ (pacts_at _ s v H I)) as (qs & h & -> & _); eauto.
  Qed.
  Lemma apart_operands x y x' y' g g' : known x y -> known x' y' -> no_common_qubit (fst x) (fst x') -> item_gate ps (fst y) = Some g -> item_gate ps (fst y') = Some g' ->
    forall q, In q (operands g) -> ~ In q (operands g').
  Proof.
    intros [H _] [H' _] Hd Hg Hg' q Hq Hq'. apply (item_mask_spec ps _ _ _ H Hg) in Hq. apply (item_mask_spec ps _ _ _ H' Hg') in Hq'.
    rewrite (Hd q Hq) in Hq'. discriminate.
  Qed.
  Lemma swap_runs x y x' y' g g' : known x y -> known x' y' -> below y -> below y' -> kept y -> may_swap x x' ->
    item_gate ps (fst y) = Some g -> item_gate ps (fst y') = Some g' ->
    upto n 0 [(g, snd y); (g', snd y')] [(g', snd y'); (g, snd y)].
  Proof.
    intros Hk Hk' Hb Hb' [_ Hkeep] Hm Hg Hg'. specialize (Hkeep g Hg).
    destruct Hm as [i j f Hf Hd|i j f f' Hf Hf' Hd].
    - pose proof (apart_operands _ _ _ _ _ _ Hk Hk' Hd Hg Hg') as Ho. destruct (known_act _ _ _ Hk Hb Hf Hg) as (qs & h & -> & Ha). destruct Hk as [_ E], Hk' as [H' E']. cbn [snd] in E. rewrite <- E.
      apply upto_swap; [assumption|now apply (known_local (j, f) y')|exact Ho|intros _; exact Hkeep].
    - pose proof (apart_operands _ _ _ _ _ _ Hk Hk' Hd Hg Hg') as Ho. destruct (known_act _ _ _ Hk Hb Hf Hg) as (qs & h & -> & Ha). destruct (known_act _ _ _ Hk' Hb' Hf' Hg') as (rs & h' & -> & Ha').
      now apply upto_swap_conditional.
  Qed.

  Lemma instantiate_app p q : instantiate ps (p ++ q) =
    match instantiate ps p, instantiate ps q with Some l, Some l' => Some (l ++ l') | _, _ => None end.
  Proof.
    induction p as [|[i c] p IH]; cbn [app instantiate]; [now destruct (instantiate ps q)|]. rewrite IH.
    destruct (item_gate ps i), (instantiate ps p), (instantiate ps q); reflexivity.
  Qed.
  (** the same runs to the end *)
  Definition like (p p' : program) : Prop :=
    match instantiate ps p, instantiate ps p' with
    | Some l, Some l' => upto n 0 l l'
    | None, None => True
    | _, _ => False
    end.
  Lemma like_refl p : like p p.
  Proof. unfold like. destruct (instantiate ps p); [apply upto_refl|exact I]. Qed.
  Lemma like_sym p p' : like p p' -> like p' p.
  Proof. unfold like. destruct (instantiate ps p), (instantiate ps p'); auto. apply upto_sym0. Qed.
  Lemma like_trans p p' p'' : like p p' -> like p' p'' -> like p p''.
  Proof. unfold like. destruct (instantiate ps p), (instantiate ps p'), (instantiate ps p''); try contradiction; auto. apply upto_trans0. Qed.
  Lemma like_swap p1 p2 x y x' y' items2 : Forall2 known items2 p2 -> Forall below p2 -> known x y -> known x' y' -> below y -> below y' -> kept y -> may_swap x x' ->
    like (p1 ++ y :: y' :: p2) (p1 ++ y' :: y :: p2).
  Proof.
    intros H2 Hb2 Hk Hk' Hb Hb' Hkeep Hm. unfold like. rewrite !instantiate_app. destruct y as [i c], y' as [i' c']. cbn [instantiate].
    destruct (instantiate ps p1) as [l1|]; [|exact I]. destruct (item_gate ps i) as [g|] eqn:Eg, (item_gate ps i') as [g'|] eqn:Eg', (instantiate ps p2) as [l2|] eqn:E2; try exact I.
    apply (upto_app n 0 l1 [(g, c); (g', c')] [(g', c'); (g, c)] l2).
    - clear - Hn H2 Hb2 E2. revert l2 E2. induction H2 as [|x y items p Hxy H2 IH]; intros l2 E2.
      + injection E2 as <-. constructor.
      + destruct y as [j d]. cbn [instantiate] in E2. destruct (item_gate ps j) as [g|] eqn:Eg; [|discriminate]. destruct (instantiate ps p) as [l|]; [|discriminate].
        injection E2 as <-. inversion Hb2; subst. constructor; [now apply (known_local x (j, d))|now apply IH].
    - apply (swap_runs x (i, c) x' (i', c') g g' Hk Hk' Hb Hb' Hkeep Hm Eg Eg').
  Qed.

  Lemma known_split items p : Forall2 known items p -> forall l1 l2, items = l1 ++ l2 -> exists p1 p2, p = p1 ++ p2 /\ Forall2 known l1 p1 /\ Forall2 known l2 p2.
  Proof. intros H l1 l2 ->. apply Forall2_app_inv_l in H. destruct H as (p1 & p2 & H1 & H2 & ->). eauto. Qed.
  Lemma reordered_like items items' : reordered items items' -> forall p, Forall2 known items p -> Forall below p -> Forall kept p ->
    exists p', Forall2 known items' p' /\ Permutation p p' /\ like p p'.
  Proof.
    induction 1 as [l|l1 a b l2 Hm|l l' l'' _ IH1 _ IH2]; intros p Hk Hb Hkp.
    - exists p. split; [assumption|]. split; [reflexivity|apply like_refl].
    - apply Forall2_app_inv_l in Hk. destruct Hk as (p1 & q & H1 & Hq & ->). inversion Hq as [|? ya ? q' Ha Hq']; subst. inversion Hq' as [|? yb ? p2 Hb' H2]; subst.
      exists (p1 ++ yb :: ya :: p2). split; [apply Forall2_app; [assumption|]; constructor; [assumption|]; now constructor|]. split.
      { apply Permutation_app_head. constructor. }
      apply Forall_app in Hb. destruct Hb as [_ Hb]. inversion Hb as [|? ? Bya Hb0]; subst. inversion Hb0 as [|? ? Byb Bp2]; subst.
      apply Forall_app in Hkp. destruct Hkp as [_ Hkp]. inversion Hkp as [|? ? Kya Hkp0]; subst. inversion Hkp0 as [|? ? Kyb Kp2]; subst.
      destruct Hm as [Hm|Hm]; [|apply like_sym]; (eapply like_swap; [exact H2|..|exact Hm]; assumption).
    - destruct (IH1 p Hk Hb Hkp) as (p' & Hk' & P1 & L1). destruct (IH2 p' Hk') as (p'' & Hk'' & P2 & L2); [eapply Permutation_Forall; eassumption..|].
      exists p''. split; [assumption|]. split; [now transitivity p'|now apply like_trans with p'].
  Qed.
End Program.

Lemma known_circuit c p : circuit_is c p -> Forall2 known (in_order c) p.
Proof.
  intros [H E]. unfold in_order. rewrite E. clear E. revert H. generalize (c_gates c). induction p as [|[i f] p IH]; intros gs H; cbn [map combine fst snd] in *.
  - inversion H; subst. constructor.
  - inversion H as [|g ? gs' ? Hg Hr]; subst. cbn [combine]. constructor; [split; auto|auto].
Qed.
Lemma circuit_known c p : length (c_gates c) = length (c_conds c) -> Forall2 known (in_order c) p -> circuit_is c p.
Proof.
  unfold in_order, circuit_is. generalize (c_gates c), (c_conds c). intros gs fs. revert fs p. induction gs as [|g gs IH]; intros [|f fs] p El H; try discriminate; cbn [combine] in H; inversion H as [|? y ? p' Hk Hr]; subst.
  - split; [constructor|reflexivity].
  - destruct Hk as [H1 H2]. destruct (IH fs p' (f_equal pred El) Hr) as [A B]. cbn [map fst snd] in *. split; [now constructor|]. now rewrite B, H2.
Qed.
Lemma reordered_operands p p' : Permutation p p' -> forall n, existsb (fun q => n <=? q) (program_operands p) = existsb (fun q => n <=? q) (program_operands p').
Proof.
  intros H n. apply eq_iff_eq_true. rewrite !existsb_exists. unfold program_operands. split; intros (q & Hq & Hle); exists q; (split; [|exact Hle]); apply in_flat_map in Hq; destruct Hq as (y & Hy & Hin);
    apply in_flat_map; exists y; (split; [|exact Hin]); [now apply (Permutation_in y H)|now apply (Permutation_in y (Permutation_sym H))].
Qed.

Theorem order_correct n L L' ps c c' p w : n < 64 -> lanes_ok L -> lanes_ok L' -> circuit_is c p -> norm_kept n ps p ->
  length (c_gates c') = length (c_conds c') -> reordered (in_order c) (in_order c') ->
  sqnorm n (w_amp w) = 1%R -> (forall k, unit_draw (w_rand w k)) ->
  (exists o, circuit_update n L ps c w o) /\ (exists o', circuit_update n L' ps c' w o') /\
  forall o o', circuit_update n L ps c w o -> circuit_update n L' ps c' w o' -> same_result n o o'.
Proof.
  intros Hn HL HL' Hc Hk Hlen Hre Hnorm Hu. set (s := SState (w_amp w) (w_reg w)).
  assert (Hp : exists p', circuit_is c' p' /\ Permutation p p' /\
    (existsb (fun q => n <=? q) (program_operands p) = false -> like n ps p p')).
  { destruct (existsb (fun q => n <=? q) (program_operands p)) eqn:Eo.
    - assert (Hp : forall items items', reordered items items' -> forall p, Forall2 known items p -> exists p', Forall2 known items' p' /\ Permutation p p').
      { clear. induction 1 as [l|l1 a b l2 Hm|l l' l'' _ IH1 _ IH2]; intros p Hk.
        - exists p. auto.
        - apply Forall2_app_inv_l in Hk. destruct Hk as (p1 & q & H1 & Hq & ->). inversion Hq as [|? ya ? q' Ha Hq']; subst. inversion Hq' as [|? yb ? p2 Hb' H2]; subst.
          exists (p1 ++ yb :: ya :: p2). split; [apply Forall2_app; [assumption|]; constructor; [assumption|]; now constructor|]. apply Permutation_app_head. constructor.
        - destruct (IH1 p Hk) as (p' & Hk' & P1). destruct (IH2 p' Hk') as (p'' & Hk'' & P2). exists p''. split; [assumption|now transitivity p']. }
      destruct (Hp _ _ Hre p (known_circuit c p Hc)) as (p' & H1 & H2). exists p'. split; [now apply circuit_known|]. split; [assumption|discriminate].
    - destruct (reordered_like n ps Hn _ _ Hre p (known_circuit c p Hc)) as (p' & H1 & H2 & H3).
      + apply Forall_forall. intros y Hy. apply Forall_forall. intros q Hq. destruct (N.ltb_spec q n) as [|Hle]; [assumption|]. exfalso.
        assert (X : existsb (fun q => n <=? q) (program_operands p) = true); [|congruence]. apply existsb_exists. exists q. split; [|lia]. apply in_flat_map. now exists y.
      + exact Hk.
      + exists p'. split; [now apply circuit_known|]. split; [assumption|intros _; assumption]. }
  destruct Hp as (p' & Hc' & Hperm & Hlike).
  assert (Hk' : norm_kept n ps p') by (unfold norm_kept in *; eapply Permutation_Forall; eassumption).
  assert (Hout : forall q, norm_kept n ps q -> forall us, Forall unit_draw us -> ~ run_program watch_all n ps q us s SOutside) by (intros q Hq us Hus; now apply program_inside).
  pose proof (circuit_runs n L ps c p w s Hn HL Hc (conj (fun x _ => eq_refl) eq_refl) Hu (Hout p Hk)) as [R1 R2].
  pose proof (circuit_runs n L' ps c' p' w s Hn HL' Hc' (conj (fun x _ => eq_refl) eq_refl) Hu (Hout p' Hk')) as [R1' R2'].
  split; [exact R2|]. split; [exact R2'|]. intros o o' Ho Ho'. destruct (R1 o Ho) as (us & so & Hr & Hus & He). destruct (R1' o' Ho') as (us' & so' & Hr' & Hus' & He').
  assert (Hrun : forall us t, run_program watch_all n ps p us s (SDone t) <-> run_program watch_all n ps p' us s (SDone t)).
  { intros vs t. unfold run_program. rewrite <- (reordered_operands p p' Hperm n). destruct (existsb _ (program_operands p)); [reflexivity|]. specialize (Hlike eq_refl). unfold like in Hlike.
    destruct (instantiate ps p) as [l|], (instantiate ps p') as [l'|]; try contradiction; [|reflexivity].
    rewrite !dexec_spec. split; intros [ms H]; exists ms; [apply Hlike; now rewrite turn_0|apply Hlike in H; now rewrite turn_0 in H]. }
  assert (Hdet : forall c p us us' so so', circuit_is c p -> run_program watch_all n ps p us s so -> run_program watch_all n ps p us' s so' -> us = map (w_rand w) (seq 0 (length us)) ->
    us' = map (w_rand w) (seq 0 (length us')) -> us = us' /\ so = so').
  { clear - Hn. intros c p us us' so so' Hc H H' E E'. unfold run_program in H, H'. destruct (existsb _ _); [destruct H as [-> ->], H' as [-> ->]; auto|].
    destruct (instantiate ps p) as [l|] eqn:El; [|destruct H as [-> ->], H' as [-> ->]; auto].
    exact (exec_deterministic watch_all n l (instantiate_proper ps p _ l (proj1 Hc) El) [] (w_rand w) us us' s so so' E E' H H'). }
  destruct Hus as [U1 U2], Hus' as [U1' U2'].
  destruct o as [[] wo|wo|], so as [t|t|]; try contradiction; destruct o' as [[] wo'|wo'|], so' as [t'|t'|]; try contradiction; cbn [ends_as same_result] in *; try exact I.
  - apply Hrun in Hr. destruct (Hdet c' p' us us' _ _ Hc' Hr Hr' U1 U1') as [-> [= ->]]. destruct He as [A1 A2], He' as [B1 B2]. split; [intros x Hx; now rewrite A1, B1|]. split; [congruence|].
    intros k. now rewrite U2, U2'.
  - apply Hrun in Hr. destruct (Hdet c' p' us us' _ _ Hc' Hr Hr' U1 U1') as [_ [=]].
  - apply Hrun in Hr'. destruct (Hdet c p us us' _ _ Hc Hr Hr' U1 U1') as [_ [=]].
Qed.
