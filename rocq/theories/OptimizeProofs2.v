(** Runs of gate lists up to a global phase. *)
From Verif Require Export OptimizeProofs.
From Coq Require Import ZifyBool ZifyN ZifyNat Permutation Lra FunctionalExtensionality.

Lemma turn_0 s : turned 0 s = s.
Proof. destruct s as [psi r]. unfold turned. cbn [s_psi s_reg]. f_equal. apply functional_extensionality. intros x. rewrite Cexpi_0. ring. Qed.
Lemma turn_turn a b s : turned a (turned b s) = turned (a + b) s.
Proof. unfold turned. cbn [s_psi s_reg]. f_equal. apply functional_extensionality. intros x. rewrite Cexpi_add. ring. Qed.
Lemma turn_back a s : turned a (turned (- a) s) = s.
Proof. rewrite turn_turn, Rplus_opp_r. apply turn_0. Qed.
Lemma turn_forth a s : turned (- a) (turned a s) = s.
Proof. rewrite turn_turn, Rplus_opp_l. apply turn_0. Qed.

Section Runs.
  Variable n : N.
  (** Runs that end normally, with the qubits that are measured at the end. *)
  Inductive dexec : list (sgate * option cond) -> list N -> list R -> sstate -> list N -> sstate -> Prop :=
  | dexec_nil ms s : dexec [] ms [] s ms s
  | dexec_skip g c r ms us s ms' s' : holds c (s_reg s) = Ok false -> dexec r ms us s ms' s' -> dexec ((g, c) :: r) ms us s ms' s'
  | dexec_gate g c r ms us vs s s1 ms' s' : holds c (s_reg s) = Ok true -> touches ms g = false -> step n g us s (SDone s1) ->
      dexec r (unreset_after g ms) vs s1 ms' s' -> dexec ((g, c) :: r) ms (us ++ vs) s ms' s'.
  Lemma dexec_spec l ms us s s' : exec_list watch_all n l ms us s (SDone s') <-> exists ms', dexec l ms us s ms' s'.
  Proof.
    split.
    - intros H. remember (SDone s') as o eqn:Eo. induction H as [| | | | |g c r ms us vs s s1 o Hh Ht Hs He IH|g c r ms us s o Hh Ht Hs Ho]; try discriminate.
      + injection Eo as ->. eexists. constructor.
      + destruct (IHexec_list Eo) as [ms' H']. exists ms'. now apply dexec_skip.
      + destruct (IH Eo) as [ms' H']. exists ms'. apply dexec_gate with s1; auto.
      + now elim (Ho s').
    - intros [ms' H]. induction H as [|g c r ms us s ms' s' Hh He IH|g c r ms us vs s s1 ms' s' Hh Ht Hs He IH].
      + constructor.
      + now apply exec_skip.
      + apply exec_gate with s1; auto.
  Qed.
  Lemma dexec_one g c r ms us s ms' s' : dexec ((g, c) :: r) ms us s ms' s' <->
    (holds c (s_reg s) = Ok false /\ dexec r ms us s ms' s') \/
    exists us1 us2 s1, us = us1 ++ us2 /\ holds c (s_reg s) = Ok true /\ touches ms g = false /\ step n g us1 s (SDone s1) /\ dexec r (unreset_after g ms) us2 s1 ms' s'.
  Proof.
    split.
    - intros H. inversion H; subst; [left; auto|right]. eauto 10.
    - intros [[H1 H2]|(us1 & us2 & s1 & -> & H1 & H2 & H3 & H4)]; [now apply dexec_skip|now apply dexec_gate with s1].
  Qed.
  Lemma dexec_end ms us s ms' s' : dexec [] ms us s ms' s' <-> us = [] /\ ms' = ms /\ s' = s.
  Proof. split; [intros H; inversion H; subst; auto|]. intros (-> & -> & ->). constructor. Qed.
  Lemma dexec_app l1 : forall l2 ms us s ms' s', dexec (l1 ++ l2) ms us s ms' s' <->
    exists us1 us2 ms1 s1, us = us1 ++ us2 /\ dexec l1 ms us1 s ms1 s1 /\ dexec l2 ms1 us2 s1 ms' s'.
  Proof.
    induction l1 as [|[g c] l1 IH]; intros l2 ms us s ms' s'; cbn [app]; split.
    - intros H. exists [], us, ms, s. split; [reflexivity|]. split; [constructor|assumption].
    - intros (us1 & us2 & ms1 & s1 & -> & H1 & H2). inversion H1; subst. exact H2.
    - rewrite dexec_one. intros [[Hh H]|(vs1 & vs2 & s2 & -> & Hh & Ht & Hs & H)].
      + apply IH in H. destruct H as (us1 & us2 & ms1 & s1 & -> & H1 & H2). exists us1, us2, ms1, s1. split; [reflexivity|]. split; [now apply dexec_skip|assumption].
      + apply IH in H. destruct H as (us1 & us2 & ms1 & s1 & -> & H1 & H2). exists (vs1 ++ us1), us2, ms1, s1. split; [apply app_assoc|].
        split; [now apply dexec_gate with s2|assumption].
    - intros (us1 & us2 & ms1 & s1 & -> & H1 & H2). apply dexec_one in H1. destruct H1 as [[Hh H]|(vs1 & vs2 & s2 & -> & Hh & Ht & Hs & H)].
      + apply dexec_skip; [assumption|]. apply IH. now exists us1, us2, ms1, s1.
      + rewrite <- app_assoc. apply dexec_gate with s2; try assumption. apply IH. now exists vs2, us2, ms1, s1.
  Qed.

  (** The same runs, up to the phase t. *)
  Definition upto (t : R) (l l' : list (sgate * option cond)) : Prop :=
    forall ms us s ms' s', dexec l ms us s ms' (turned t s') <-> dexec l' ms us s ms' s'.
  Lemma upto_refl l : upto 0 l l.
  Proof. intros ms us s ms' s'. now rewrite turn_0. Qed.
  Lemma upto_trans a b l l' l'' : upto a l l' -> upto b l' l'' -> upto (a + b) l l''.
  Proof. intros H1 H2 ms us s ms' s'. rewrite <- turn_turn. etransitivity; [apply H1|apply H2]. Qed.
  Lemma upto_trans0 a l l' l'' : upto a l l' -> upto 0 l' l'' -> upto a l l''.
  Proof. intros H1 H2. rewrite <- (Rplus_0_r a). now apply upto_trans with l'. Qed.
  Lemma upto_sym a l l' : upto a l l' -> upto (- a) l' l.
  Proof. intros H ms us s ms' s'. rewrite <- (turn_back a s') at 2. symmetry. apply H. Qed.
  Lemma upto_sym0 l l' : upto 0 l l' -> upto 0 l' l.
  Proof. intros H. rewrite <- Ropp_0. now apply upto_sym. Qed.
  Definition locals (l : list (sgate * option cond)) : Prop := Forall (fun gc => local (fst gc)) l.
  Lemma keeps_turn t : keeps n (fun psi x => (Cexpi t * psi x)%C).
  Proof. intros psi. unfold sqnorm. apply Rsuml_ext_seqN. intros x _. rewrite Cnorm2_mul, Cexpi_norm. ring. Qed.
  Lemma step_turn t g us s s' : local g -> step n g us s (SDone s') -> step n g us (turned t s) (SDone (turned t s')).
  Proof.
    intros Hl H. destruct s as [psi r]. apply (step_comm n [] _ (acts_on_times (Cexpi t)) g Hl).
    - intros i [].
    - intros _. apply keeps_turn.
    - now exists s'.
  Qed.
  Lemma dexec_turn t l ms us s ms' s' : locals l -> dexec l ms us s ms' s' -> dexec l ms us (turned t s) ms' (turned t s').
  Proof.
    intros Hl H. induction H as [|g c r ms us s ms' s' Hh He IH|g c r ms us vs s s1 ms' s' Hh Ht Hs He IH]; [constructor|..].
    - inversion Hl; subst. apply dexec_skip; auto.
    - inversion Hl; subst. apply dexec_gate with (turned t s1); auto. now apply step_turn.
  Qed.
  Lemma upto_app a p l l' r : locals r -> upto a l l' -> upto a (p ++ l ++ r) (p ++ l' ++ r).
  Proof.
    intros Hl H ms us s ms' s'. split.
    - rewrite !dexec_app. intros (us1 & us2 & ms1 & s1 & -> & H1 & H2). exists us1, us2, ms1, s1. split; [reflexivity|]. split; [assumption|].
      apply dexec_app in H2. destruct H2 as (us3 & us4 & ms2 & s2 & -> & H2 & H3). apply dexec_app. exists us3, us4, ms2, (turned (- a) s2).
      split; [reflexivity|]. split; [apply H; now rewrite turn_back|]. apply (dexec_turn (- a)) in H3; [|assumption]. now rewrite turn_forth in H3.
    - rewrite !dexec_app. intros (us1 & us2 & ms1 & s1 & -> & H1 & H2). exists us1, us2, ms1, s1. split; [reflexivity|]. split; [assumption|].
      apply dexec_app in H2. destruct H2 as (us3 & us4 & ms2 & s2 & -> & H2 & H3). apply dexec_app. exists us3, us4, ms2, (turned a s2).
      split; [reflexivity|]. split; [now apply H|]. now apply dexec_turn.
  Qed.

  (** ** Swapping, merging *)
  Lemma touches_spec ms g : touches ms g = true <-> exists q, In q ms /\ In q (operands g).
  Proof.
    unfold touches. rewrite existsb_exists. split; intros (q & H & H'); exists q; split; try assumption.
    - apply existsb_exists in H'. destruct H' as (q' & Hi & E). apply N.eqb_eq in E. now subst.
    - apply existsb_exists. exists q. split; [assumption|apply N.eqb_refl].
  Qed.
  Lemma touches_ext ms ms' g g' : (forall q, In q ms /\ In q (operands g) <-> In q ms' /\ In q (operands g')) -> touches ms g = touches ms' g'.
  Proof.
    intros H. destruct (touches ms g) eqn:E, (touches ms' g') eqn:E'; try reflexivity; exfalso.
    - apply touches_spec in E. destruct E as [q Hq]. apply H in Hq. assert (touches ms' g' = true) by (apply touches_spec; now exists q). congruence.
    - apply touches_spec in E'. destruct E' as [q Hq]. apply H in Hq. assert (touches ms g = true) by (apply touches_spec; now exists q). congruence.
  Qed.
  Lemma touches_after h ms g : (forall i, In i (operands g) -> ~ In i (operands h)) -> touches (unreset_after h ms) g = touches ms g.
  Proof.
    intros Hd. apply touches_ext. intros q. destruct h as [| q' bit []|]; cbn [unreset_after]; try tauto. cbn [operands] in Hd.
    split; intros [H1 H2]; split; try assumption; [|now right]. destruct H1 as [->|]; [|assumption]. elim (Hd q H2). now left.
  Qed.
  Lemma dexec_act qs f r ms us s ms' s' : dexec ((Act qs f, None) :: r) ms us s ms' s' <->
    touches ms (Act qs f) = false /\ dexec r ms us (SState (f (s_psi s)) (s_reg s)) ms' s'.
  Proof.
    rewrite dexec_one. split.
    - intros [[H _]|(us1 & us2 & s1 & -> & _ & Ht & Hs & H)]; [discriminate|]. inversion Hs; subst. auto.
    - intros [Ht H]. right. exists [], us, (SState (f (s_psi s)) (s_reg s)). split; [reflexivity|]. split; [reflexivity|]. split; [assumption|]. split; [constructor|assumption].
  Qed.
  Lemma upto_swap qs f h c : acts_on qs f -> local h -> (forall i, In i qs -> ~ In i (operands h)) -> (measuring h = true -> keeps n f) ->
    upto 0 [(Act qs f, None); (h, c)] [(h, c); (Act qs f, None)].
  Proof.
    intros Hf Hl Hd Hk ms us [psi r] ms' s'. rewrite turn_0, dexec_act, (dexec_one h c []), (dexec_one h c [(Act qs f, None)]). cbn [s_psi s_reg]. split.
    - intros [Ht [[Hc H]|(us1 & us2 & s1 & -> & Hc & Ht' & Hs & H)]].
      + left. split; [assumption|]. apply dexec_act. auto.
      + apply (step_comm n qs f Hf h Hl Hd Hk) in Hs. destruct Hs as (s & Hs & ->). right. exists us1, us2, s. split; [reflexivity|]. split; [assumption|].
        split; [assumption|]. split; [assumption|]. apply dexec_act. split; [|assumption]. rewrite touches_after by assumption. assumption.
    - intros [[Hc H]|(us1 & us2 & s & -> & Hc & Ht' & Hs & H)].
      + apply dexec_act in H. destruct H as [Ht H]. split; [assumption|]. left. auto.
      + apply dexec_act in H. destruct H as [Ht H]. rewrite touches_after in Ht by assumption. split; [assumption|]. right.
        exists us1, us2, (SState (f (s_psi s)) (s_reg s)). split; [reflexivity|]. split; [assumption|]. split; [assumption|]. split; [|assumption].
        apply (step_comm n qs f Hf h Hl Hd Hk). now exists s.
  Qed.
  Lemma upto_merge t q1 f1 q2 f2 q f : (forall psi x, f2 (f1 psi) x = (Cexpi t * f psi x)%C) -> (forall i, In i q <-> In i q1 \/ In i q2) ->
    upto t [(Act q1 f1, None); (Act q2 f2, None)] [(Act q f, None)].
  Proof.
    intros Hf Hq ms us s ms' s'. rewrite !dexec_act. cbn [s_psi s_reg].
    assert (Ht : touches ms (Act q f) = touches ms (Act q1 f1) || touches ms (Act q2 f2)).
    { apply eq_iff_eq_true. rewrite orb_true_iff, !touches_spec. cbn [operands]. split.
      - intros (i & H1 & H2). apply Hq in H2. destruct H2; [left|right]; eauto.
      - intros [(i & H1 & H2)|(i & H1 & H2)]; exists i; split; try assumption; apply Hq; auto. }
    rewrite Ht, orb_false_iff. assert (Hs : forall s'', SState (f2 (f1 (s_psi s))) (s_reg s) = turned t s'' <-> SState (f (s_psi s)) (s_reg s) = s'').
    { intros s''. assert (E : SState (f2 (f1 (s_psi s))) (s_reg s) = turned t (SState (f (s_psi s)) (s_reg s))).
      { unfold turned. cbn [s_psi s_reg]. f_equal. apply functional_extensionality. apply Hf. }
      rewrite E. split; [|now intros <-]. intros H. apply (f_equal (turned (- t))) in H. now rewrite !turn_forth in H. }
    rewrite !dexec_end. split.
    - intros (H1 & H2 & Hu & Hm & E). symmetry in E. apply Hs in E. auto.
    - intros ([H1 H2] & Hu & Hm & E). symmetry in E. apply Hs in E. auto.
  Qed.
  Lemma upto_nothing t f : (forall psi x, f psi x = (Cexpi t * psi x)%C) -> upto t [(Act [] f, None)] [].
  Proof.
    intros Hf ms us s ms' s'. rewrite dexec_act. cbn [s_psi s_reg].
    assert (Ht : touches ms (Act [] f) = false) by (apply not_true_is_false; rewrite touches_spec; intros (q & _ & [])).
    assert (Hs : SState (f (s_psi s)) (s_reg s) = turned t s) by (unfold turned; f_equal; apply functional_extensionality; apply Hf).
    rewrite Hs, !dexec_end. split.
    - intros (_ & Hu & Hm & E). split; [assumption|]. split; [assumption|]. rewrite <- (turn_forth t s'), E. apply turn_forth.
    - intros (Hu & Hm & ->). auto.
  Qed.
  (** A list of gates that act on pairwise disjoint qubits may be reordered, and moved past a gate on other qubits. *)
  Definition is_act (gc : sgate * option cond) : Prop := exists qs f, gc = (Act qs f, None) /\ acts_on qs f.
  Definition apart (a b : sgate * option cond) : Prop := forall i, In i (operands (fst a)) -> ~ In i (operands (fst b)).
  Lemma is_act_local l : Forall is_act l -> locals l.
  Proof. intros H. eapply Forall_impl; [|exact H]. intros [g c] (qs & f & [= -> ->] & Hf). exact Hf. Qed.
  Lemma upto_pass l h c : Forall is_act l -> local h -> Forall (fun a => apart a (h, c)) l ->
    (measuring h = true -> Forall (fun a => forall qs f, fst a = Act qs f -> keeps n f) l) -> upto 0 (l ++ [(h, c)]) ((h, c) :: l).
  Proof.
    intros Ha Hl Hd Hk. induction l as [|a l IH]; [apply upto_refl|]. inversion Ha as [|? ? Ha1 Ha2]; subst. inversion Hd as [|? ? Hd1 Hd2]; subst.
    assert (Hk1 : measuring h = true -> Forall (fun a => forall qs f, fst a = Act qs f -> keeps n f) l) by (intros Hm; specialize (Hk Hm); now inversion Hk).
    specialize (IH Ha2 Hd2 Hk1).
    apply upto_trans0 with (a :: (h, c) :: l).
    - apply (upto_app 0 [a] (l ++ [(h, c)]) ((h, c) :: l) []) in IH; [|constructor]. rewrite !app_nil_r in IH. exact IH.
    - destruct Ha1 as (qs & f & -> & Hf). apply (upto_app 0 [] [(Act qs f, None); (h, c)] [(h, c); (Act qs f, None)] l); [now apply is_act_local|].
      apply upto_swap; try assumption. intros Hm. specialize (Hk Hm). inversion Hk as [|? ? H1 H2]; subst. eapply H1; reflexivity.
  Qed.
  Lemma upto_perm l l' : Permutation l l' -> Forall is_act l -> ForallOrdPairs apart l -> upto 0 l l'.
  Proof.
    assert (Hsym : forall a b, apart a b -> apart b a) by (intros a b H i H1 H2; apply (H i); assumption).
    intros Hp. induction Hp as [|x l l' Hp IH|x y l|l l' l'' Hp1 IH1 Hp2 IH2]; intros Ha Hd.
    - apply upto_refl.
    - inversion Ha; subst. inversion Hd; subst. specialize (IH H2 H4). apply (upto_app 0 [x] l l' []) in IH; [|constructor]. now rewrite !app_nil_r in IH.
    - inversion Ha as [|? ? Hy Ha1]; subst. inversion Ha1 as [|? ? Hx Hl]; subst. inversion Hd as [|? ? Hy' Hd1]; subst. inversion Hy' as [|? ? Hyx _]; subst.
      destruct Hy as (qs & f & -> & Hf). destruct Hx as (rs & g & -> & Hg).
      apply (upto_app 0 [] [(Act qs f, None); (Act rs g, None)] [(Act rs g, None); (Act qs f, None)] l); [now apply is_act_local|].
      apply upto_swap; try assumption. discriminate.
    - assert (Ha' : Forall is_act l') by (eapply Permutation_Forall; eassumption). apply upto_trans0 with l'; [now apply IH1|]. apply IH2; [assumption|].
      clear -Hsym Hp1 Hd. revert Hd. induction Hp1 as [|x l l' Hp IH|x y l|l l' l'' Hp1 IH1 Hp2 IH2]; intros Hd; [constructor|..].
      + inversion Hd; subst. constructor; [eapply Permutation_Forall; eassumption|auto].
      + inversion Hd as [|? ? H1 H2]; subst. inversion H1; subst. inversion H2; subst. constructor; [constructor; auto|constructor; assumption].
      + auto.
  Qed.
End Runs.
