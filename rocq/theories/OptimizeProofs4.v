(** Merging two gates, as a rewriting of gate lists. *)
From Verif Require Export OptimizeProofs3.
From Coq Require Import ZifyBool ZifyN ZifyNat Permutation Lra FunctionalExtensionality.

Section Fine.
  Variables (n : N) (M : Prop).
  Hypothesis Hn : n < 64.
  (** A gate that may wait: [s] is what it stands for, [M] says that something is measured. *)
  Definition fine (e : tgate) (s : sgate) : Prop :=
    made e /\ acts (snd e) s /\ Forall (fun q => q < n) (operands s) /\ (is_rz e = true -> g_c (g_base (snd e)) = 0) /\
    (M -> keeps n (gate_sem (snd e))).
  Lemma fine_act e s : fine e s -> exists qs, s = Act qs (gate_sem (snd e)) /\ acts_on qs (gate_sem (snd e)) /\ gate_fits n (snd e) /\
    (forall i, In i qs <-> N.testbit (base_operands (g_base (snd e))) i = true) /\ (M -> keeps n (gate_sem (snd e))).
  Proof.
    intros (_ & Ha & HF & _ & Hk). destruct (acts_local n _ _ Hn Ha HF) as (qs & E & Ho & Hf & Hi). exists qs. auto 6.
  Qed.
  Lemma operands_lt g i : gate_fits n g -> N.testbit (base_operands (g_base g)) i = true -> i < n.
  Proof.
    intros [Ht Hc] Hi. unfold base_operands in Hi. rewrite N.lor_spec in Hi. destruct (N.ltb_spec i n); [assumption|].
    rewrite (testbit_high _ n i Ht), (testbit_high _ n i Hc) in Hi by assumption. discriminate.
  Qed.
  Lemma fits_of e s : fine e s -> gate_fits n (snd e).
  Proof. intros H. destruct (fine_act e s H) as (qs & _ & _ & Hf & _). exact Hf. Qed.
  Lemma merge_not_perm vf e1 e2 r : merge_gate vf e1 e2 = Ok r -> is_permutation e1 = false /\ is_permutation e2 = false.
  Proof.
    intros H. destruct (is_permutation e1) eqn:E1; [rewrite (merge_throws vf e1 e2) in H by auto; discriminate|].
    destruct (is_permutation e2) eqn:E2; [rewrite (merge_throws vf e1 e2) in H by auto; discriminate|]. auto.
  Qed.
  Lemma fine_merge vf e1 s1 e2 s2 e ph : fine e1 s1 -> fine e2 s2 -> merge_gate vf e1 e2 = Ok (e, ph) ->
    base_operands (g_base (snd e)) = N.lor (base_operands (g_base (snd e1))) (base_operands (g_base (snd e2))) ->
    exists s t, fine e s /\ (Rabs (t - ph) <= eps)%R /\ upto n t [(s1, None); (s2, None)] [(s, None)].
  Proof.
    intros F1 F2 H Hops. pose proof (fits_of _ _ F1) as Fi1. pose proof (fits_of _ _ F2) as Fi2.
    destruct (merge_not_perm _ _ _ _ H) as [P1 P2].
    destruct (merge_good vf e1 e2 n Hn (proj1 F1) (proj1 F2) Fi1 Fi2 P1 P2) as (g & phase & delta & E & Hm & (Wg & Fg & Sg) & Hd & Hrz & Hc).
    rewrite H in E. injection E as <- <-. specialize (Fg n Fi1 Fi2).
    (* the merged gate stands for some act *)
    assert (Hs : exists s, acts (snd e) s /\ Forall (fun q => q < n) (operands s)).
    { destruct (merge_origin vf e1 e2 e ph H) as [->|[->|(k & Hk & Hmk & Ht)]].
      - destruct F1 as (_ & A & B & _). eauto.
      - destruct F2 as (_ & A & B & _). eauto.
      - assert (Hcall : exists vf k, call_typed k /\ make vf k = Ok (snd e)) by (inversion Hm; subst; [cbn [snd]; eauto|discriminate]).
        destruct Hcall as (vf' & k' & Hty & Hmk'). exists (act_of k'). split; [eapply acts_factory; eassumption|].
        destruct (acts_spec _ _ (acts_factory _ _ _ Hty Hmk')) as (qs & f & E & _ & Hi & _). rewrite E. cbn [operands]. apply Forall_forall. intros q Hq.
        apply Hi in Hq. now apply operands_lt in Hq. }
    destruct Hs as (s & Ha & HF).
    destruct (fine_act _ _ F1) as (q1 & -> & O1 & _ & I1 & K1). destruct (fine_act _ _ F2) as (q2 & -> & O2 & _ & I2 & K2).
    destruct (acts_local n _ _ Hn Ha HF) as (q & -> & O & _ & Iq).
    (* the phase is global *)
    set (t := (ph + delta)%R).
    assert (Hsem : forall psi x, gate_sem (snd e2) (gate_sem (snd e1) psi) x = (Cexpi t * gate_sem (snd e) psi x)%C).
    { intros psi x. rewrite Sg. unfold t. rewrite Cexpi_add. destruct (ctrl_ok _ x) eqn:Ex; [reflexivity|].
      assert (delta = 0%R) as ->; [|rewrite Cexpi_0; ring].
      destruct (N.eq_dec (g_c (g_base (snd e1))) (g_c (g_base (snd e2)))) as [Ec|Ec]; [|auto].
      assert (Hc0 : g_c (g_base (snd e1)) <> 0) by (intros E0; rewrite E0, ctrl_none in Ex; discriminate).
      apply Hrz.
      - destruct (is_rz e1) eqn:Ez; [|reflexivity]. elim Hc0. apply F1. assumption.
      - destruct (is_rz e2) eqn:Ez; [|reflexivity]. elim Hc0. rewrite Ec. apply F2. assumption. }
    exists (Act q (gate_sem (snd e))), t. split; [|split].
    - split; [assumption|]. split; [assumption|]. split; [assumption|]. split.
      + intros Ez. destruct (merge_origin vf e1 e2 e ph H) as [->|[->|(k & Hk & Hmk & Ht)]]; [now apply F1|now apply F2|].
        apply make_kind in Hmk. exfalso. unfold is_rz in Ez. destruct (snd e) as [| |k' b| | | | | | |]; try discriminate. destruct k' ; try discriminate.
        destruct k; cbn [kind_of result_call] in *; try contradiction. now subst k.
      + intros HM psi. transitivity (sqnorm n (fun x => (Cexpi t * gate_sem (snd e) psi x)%C)).
        * symmetry. apply (keeps_turn n t).
        * replace (fun x => (Cexpi t * gate_sem (snd e) psi x)%C) with (gate_sem (snd e2) (gate_sem (snd e1) psi)) by (apply functional_extensionality; apply Hsem).
          now rewrite K2, K1.
    - unfold t. replace (ph + delta - ph)%R with delta by ring. now apply Rlt_le.
    - apply upto_merge; [exact Hsem|]. intros i. rewrite Iq, I1, I2, Hops, N.lor_spec, orb_true_iff. reflexivity.
  Qed.
End Fine.
