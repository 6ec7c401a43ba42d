(** Circuits refine the reference execution. *)
From Verif Require Export CircuitProofs3.
From Coq Require Import ZifyBool ZifyN ZifyNat Permutation Lra.

Lemma runs_bind_gen {T U} (p : host world T) (k : T -> host world U) w (Q1 : houtcome world T -> Prop) (Q : houtcome world U -> Prop) :
  runs p w Q1 ->
  (forall t w1, Q1 (HDone t w1) -> runs (k t) w1 Q) ->
  (forall w1, Q1 (HThrown w1) -> Q (HThrown w1)) ->
  ~ Q1 HUndefined ->
  runs (hbind p k) w Q.
Proof. intros H1 H2 H3 H4. eapply runs_bind; eauto. intros H. contradiction. Qed.

(** the program of one instruction, and its mask *)
Lemma item_refines n L ps i si g : n < 64 -> lanes_ok L -> represents i si -> item_gate ps si = Some g ->
  Forall (fun q => q < n) (item_operands si) -> refines n (item_update n L ps i) g (item_stays i).
Proof.
  intros Hn HL H Hg HF. destruct H as [g0 s H|g0 key s H]; cbn [item_gate item_update item_operands item_stays] in *.
  - injection Hg as <-. now apply cgate_refines.
  - destruct (ps key) as [v|] eqn:Ek; [|discriminate]. injection Hg as <-. cbn [opt_res hlift].
    assert (HF' : Forall (fun q => q < n) (operands (s v))).
    { apply Forall_forall. intros q Hq. apply (pstands_operands g0 s v 0 q H) in Hq. rewrite Forall_forall in HF. auto. }
    intros w st Hs Hu Ho. eapply returns_bind; [apply runs_ret; reflexivity|]. now apply (pgate_refines n L Hn HL g0 s v H HF').
Qed.
Lemma item_mask_spec ps i si g : represents i si -> item_gate ps si = Some g ->
  forall q, N.testbit (item_mask i) q = true <-> In q (operands g).
Proof.
  intros H Hg. destruct H as [g0 s H|g0 key s H]; cbn [item_gate item_mask] in *.
  - injection Hg as <-. now apply stands_mask.
  - destruct (ps key) as [v|]; [|discriminate]. injection Hg as <-. now apply pstands_mask.
Qed.
Lemma touches_mask mask ms m g : (forall q, N.testbit mask q = true <-> In q ms) -> (forall q, N.testbit m q = true <-> In q (operands g)) ->
  (N.land mask m =? 0) = negb (touches ms g).
Proof.
  intros Hm Hg. destruct (touches ms g) eqn:E; cbn [negb].
  - unfold touches in E. apply existsb_exists in E. destruct E as (q & H1 & H2). apply existsb_exists in H2. destruct H2 as (q' & H2 & H3).
    apply N.eqb_eq in H3. subst q'. apply N.eqb_neq. intros H0. assert (Ht : N.testbit (N.land mask m) q = true).
    { rewrite N.land_spec. apply Hm in H1. apply Hg in H2. now rewrite H1, H2. } rewrite H0, N.bits_0 in Ht. discriminate.
  - apply N.eqb_eq. apply N.bits_inj_0. intros q. rewrite N.land_spec. destruct (N.testbit mask q) eqn:E1; [|reflexivity].
    destruct (N.testbit m q) eqn:E2; [|reflexivity]. exfalso. apply Hm in E1. apply Hg in E2. enough (touches ms g = true) by congruence.
    unfold touches. apply existsb_exists. exists q. split; [assumption|]. apply existsb_exists. exists q. split; [assumption|apply N.eqb_refl].
Qed.
Lemma mark_spec ps i si g mask ms : represents i si -> item_gate ps si = Some g -> (forall q, N.testbit mask q = true <-> In q ms) ->
  forall q, N.testbit (mark_measured i mask) q = true <-> In q (unreset_after g ms).
Proof.
  intros H Hg Hm q. destruct H as [g0 s H|g0 key s H]; cbn [item_gate mark_measured] in *.
  - injection Hg as <-. destruct H as [t g1 s Ha|q0 bit reset g1 Hme|t dist gs ss Hd Hl H2].
    + destruct (acts_spec _ _ Ha) as (qs & f & -> & _). apply Hm.
    + apply measurement_mask in Hme. destruct Hme as [_ ->]. destruct reset; [apply Hm|]. cbn [unreset_after].
      rewrite N.lor_spec, N.pow2_bits_eqb, orb_true_iff, Hm. simpl. rewrite N.eqb_eq. tauto.
    + apply Hm.
  - destruct (ps key) as [v|]; [|discriminate]. injection Hg as <-. assert (forall s', s v = s' -> match s' with Meas _ _ _ => False | _ => True end).
    { intros s' <-. destruct g0 as [t k b c|t b p c|t d gs].
      - destruct (acts_spec _ _ (pacts_at _ _ v H I)) as (qs & f & -> & _). exact I.
      - destruct (acts_spec _ _ (pacts_at _ _ v H I)) as (qs & f & -> & _). exact I.
      - apply pstands_choice_inv in H. destruct H as (ss & _ & _ & _ & ->). exact I. }
    specialize (H0 (s v) eq_refl). destruct (s v) as [| |]; try contradiction; apply Hm.
Qed.

Lemma seq_shift_by k : forall m a, map (fun i => (k + i)%nat) (seq a m) = seq (k + a) m.
Proof. induction m as [|m IH]; intros a; simpl; [reflexivity|]. now rewrite IH, <- plus_n_Sm. Qed.
Lemma used_app w us w1 vs (o : houtcome world unit) : used w us (HDone tt w1) -> used w1 vs o -> used w (us ++ vs) o.
Proof.
  intros [H1 H2] [H3 H4]. split.
  - rewrite app_length, seq_app, map_app. f_equal; [exact H1|]. rewrite H3 at 1. rewrite Nat.add_0_l.
    replace (length us) with (length us + 0)%nat at 1 by lia. rewrite <- seq_shift_by, map_map. apply map_ext. intros i. apply H2.
  - destruct o as [t w'|w'|]; [| |contradiction]; intros i; rewrite H4, H2, app_length; f_equal; lia.
Qed.

Lemma used_draws w us (o : houtcome world unit) : (forall k, unit_draw (w_rand w k)) -> used w us o -> Forall unit_draw us.
Proof. intros Hu [H _]. rewrite H. apply Forall_forall. intros x Hx. apply in_map_iff in Hx. destruct Hx as (i & <- & _). apply Hu. Qed.

Lemma run_items_runs n L ps : n < 64 -> lanes_ok L -> forall p items l, Forall2 represents items (map fst p) -> instantiate ps p = Some l ->
  Forall (fun q => q < n) (program_operands p) -> forall mask ms w s, (forall q, N.testbit mask q = true <-> In q ms) ->
  same_state n w s -> (forall k, unit_draw (w_rand w k)) ->
  (forall us, Forall unit_draw us -> ~ exec_list watch_all n l ms us s SOutside) ->
  runs (run_items n L ps items (map snd p) mask) w (fun o => exists us so, exec_list watch_all n l ms us s so /\ used w us o /\ ends_as n o so).
Proof.
  intros Hn HL p. induction p as [|[si c] p IH]; intros items l Hrep Hinst HF mask ms w s Hmask Hs Hu Hout.
  - inversion Hrep; subst. injection Hinst as <-. apply runs_ret. exists [], (SDone s). split; [constructor|]. split; [now apply used_nil_done|exact Hs].
  - inversion Hrep as [|i si' items' ? Hi Hrep']; subst. cbn [instantiate] in Hinst. destruct (item_gate ps si) as [g|] eqn:Eg; [|discriminate].
    destruct (instantiate ps p) as [l'|] eqn:El; [|discriminate]. injection Hinst as <-.
    cbn [program_operands flat_map fst] in HF. apply Forall_app in HF. destruct HF as [HF1 HF2]. fold (program_operands p) in HF2.
    cbn [map snd run_items]. assert (Hreg : w_reg w = s_reg s) by apply Hs.
    assert (Hc : runs (checked_cond c) w (fun o => o = match holds c (s_reg s) with Ok b => HDone b w | Throw => HThrown w | UB => HUndefined end)).
    { unfold checked_cond, holds. destruct c as [f|]; [|now apply runs_ret]. eapply returns_bind; [apply runs_get; reflexivity|]. rewrite Hreg.
      destruct (f (s_reg s)); cbn [hlift]; [now apply runs_ret|now apply runs_throw|]. split; [intros o ->; reflexivity|eexists; reflexivity]. }
    destruct (holds c (s_reg s)) as [go| |] eqn:Eh.
    + eapply runs_bind; [exact Hc| |intros ? [=]|intros [=]]. intros t w1 [= -> ->]. destruct go.
      * unfold guarded_update. rewrite (touches_mask mask ms (item_mask i) g Hmask (item_mask_spec ps i si g Hi Eg)).
        destruct (touches ms g) eqn:Et; cbn [negb hcheck].
        { eapply runs_bind; [instantiate (1 := fun o => o = HThrown w)| | |]; [|intros ? ? [=]| |intros [=]].
          - eapply runs_bind; [apply runs_throw; instantiate (1 := fun o => o = HThrown w); reflexivity|intros ? ? [=]|intros ? [= ->]; reflexivity|intros [=]].
          - intros w1 [= ->]. exists [], (SThrown s). split; [now apply exec_touches|]. split; [split; [reflexivity|reflexivity]|exact Hs]. }
        set (Q1 := fun o : houtcome world N => exists us so, step n g us s so /\ used w us (match o with HDone _ w' => HDone tt w' | HThrown w' => HThrown w' | HUndefined => HUndefined end) /\
                     ends_as n (match o with HDone _ w' => HDone tt w' | HThrown w' => HThrown w' | HUndefined => HUndefined end) so /\
                     match o with HDone m _ => m = mark_measured i mask | _ => True end).
        eapply (runs_bind _ _ w Q1).
        { eapply returns_bind; [apply runs_ret; reflexivity|]. eapply runs_bind.
          - apply (item_refines n L ps i si g Hn HL Hi Eg HF1 w s Hs Hu). intros us Hus Hst. apply (Hout us Hus).
            apply exec_gate_stops; auto. intros s' [=].
          - intros [] w1 (us & so & H1 & H2 & H3 & _). apply runs_ret. exists us, so. auto.
          - intros w1 (us & so & H1 & H2 & H3 & _). exists us, so. auto.
          - intros (us & so & H1 & H2 & H3 & _). exists us, so. auto. }
        { intros m w1 (us & so & H1 & H2 & H3 & ->). destruct so as [s1|s1|]; try contradiction.
          assert (Hus : Forall unit_draw us) by (eapply used_draws; eassumption).
          eapply runs_weaken; [apply (IH items' l' Hrep' eq_refl HF2 (mark_measured i mask) (unreset_after g ms) w1 s1)|].
          - now apply (mark_spec ps i si g).
          - exact H3.
          - intros k. destruct H2 as [_ H2]. rewrite H2. apply Hu.
          - intros vs Hvs Hex. apply (Hout (us ++ vs)); [now apply Forall_app|]. eapply exec_gate; eauto.
          - intros o (vs & so & H4 & H5 & H6). exists (us ++ vs), so. split; [eapply exec_gate; eauto|]. split; [eapply used_app; eassumption|exact H6]. }
        { intros w1 (us & so & H1 & H2 & H3 & _). destruct so as [s1|s1|]; try contradiction. exists us, (SThrown s1).
          split; [apply exec_gate_stops; auto; intros s' [=]|]. split; assumption. }
        { intros (us & so & _ & _ & H3 & _). destruct so; contradiction. }
      * eapply runs_weaken; [apply (IH items' l' Hrep' eq_refl HF2 mask ms w s Hmask Hs Hu)|].
        -- intros us Hus Hex. apply (Hout us Hus). now apply exec_skip.
        -- intros o (us & so & H1 & H2 & H3). exists us, so. split; [now apply exec_skip|]. split; assumption.
    + eapply runs_bind; [exact Hc|intros ? ? [=]| |intros [=]]. intros w1 [= ->]. exists [], (SThrown s).
      split; [now apply exec_cond_throws|]. split; [split; reflexivity|exact Hs].
    + exfalso. apply (Hout []); [constructor|]. now apply exec_cond_undefined.
Qed.

(** ** The checks before the run *)
Lemma bit_width_le m n : (bit_width m <= n) <-> forall i, N.testbit m i = true -> i < n.
Proof.
  unfold bit_width. destruct m as [|p]; [split; [intros _ i; rewrite N.bits_0; discriminate|lia]|]. split.
  - intros H i Hi. destruct (N.ltb_spec i n); [assumption|]. rewrite N.bits_above_log2 in Hi by lia. discriminate.
  - intros H. specialize (H (N.log2 (N.pos p))). rewrite N.bit_log2 in H by discriminate. specialize (H eq_refl). lia.
Qed.
Lemma item_mask_operands i si q : represents i si -> N.testbit (item_mask i) q = true <-> In q (item_operands si).
Proof.
  intros H. destruct H as [g0 s H|g0 key s H]; cbn [item_mask item_operands]; [now apply stands_mask|now apply pstands_mask].
Qed.
Lemma required_spec c p n : circuit_is c p -> (required_n_qubits c <=? n) = negb (existsb (fun q => n <=? q) (program_operands p)).
Proof.
  intros [H1 H2]. assert (E : forall q, existsb (fun i => N.testbit (item_mask i) q) (c_gates c) = true <-> In q (program_operands p)).
  { intros q. unfold program_operands. rewrite existsb_exists, in_flat_map. transitivity (exists si, In si (map fst p) /\ In q (item_operands si)).
    - apply (Forall2_exists represents _ _ _ _ H1). intros x y _ Hxy. now apply item_mask_operands.
    - split; [intros (si & Ha & Hb); apply in_map_iff in Ha; destruct Ha as (ic & <- & Ha); eauto|intros (ic & Ha & Hb); exists (fst ic); split; [now apply in_map|exact Hb]]. }
  unfold required_n_qubits. apply eq_true_iff_eq. rewrite N.leb_le, bit_width_le, negb_true_iff. split.
  - intros H. apply not_true_is_false. intros Hx. apply existsb_exists in Hx. destruct Hx as (q & Hq & Hle). apply E in Hq.
    specialize (H q). rewrite fold_lor_testbit, N.bits_0 in H. specialize (H Hq). lia.
  - intros H i Hi. rewrite fold_lor_testbit, N.bits_0 in Hi. apply E in Hi. destruct (N.ltb_spec i n) as [|Hle]; [assumption|].
    enough (existsb (fun q => n <=? q) (program_operands p) = true) by congruence. apply existsb_exists. exists i. split; [assumption|lia].
Qed.
Lemma keys_spec ps p : forall items, Forall2 represents items (map fst p) ->
  forallb (fun k => match ps k with Some _ => true | None => false end) (flat_map (fun i => match i with IGate _ => [] | IParam _ key => [key] end) items) =
  match instantiate ps p with Some _ => true | None => false end.
Proof.
  induction p as [|[si c] p IH]; intros items H; inversion H as [|i si' items' ? Hi Hr]; subst; [reflexivity|]. cbn [flat_map instantiate].
  rewrite forallb_app, (IH items' Hr). destruct Hi as [g s Hg|g key s Hg]; cbn [item_gate forallb].
  - now destruct (instantiate ps p).
  - destruct (ps key); [|reflexivity]. now destruct (instantiate ps p).
Qed.
Theorem circuit_runs n L ps c p w s : n < 64 -> lanes_ok L -> circuit_is c p -> same_state n w s -> (forall k, unit_draw (w_rand w k)) ->
  (forall us, Forall unit_draw us -> ~ run_program watch_all n ps p us s SOutside) ->
  runs (circuit_update n L ps c) w (fun o => exists us so, run_program watch_all n ps p us s so /\ used w us o /\ ends_as n o so).
Proof.
  intros Hn HL Hc Hs Hu Hout. unfold circuit_update. rewrite (required_spec c p n Hc). unfold run_program in *.
  assert (Hthrow : forall (k : unit -> host world unit), runs (hbind hthrow k) w (fun o => o = HThrown w)).
  { intros k. eapply runs_bind; [apply runs_throw; instantiate (1 := fun o => o = HThrown w); reflexivity|intros ? ? [=]|intros ? [= ->]; reflexivity|intros [=]]. }
  destruct (existsb _ (program_operands p)) eqn:Eo; cbn [negb hcheck].
  { eapply runs_weaken; [apply Hthrow|]. intros o ->. exists [], (SThrown s). split; [auto|]. split; [split; reflexivity|exact Hs]. }
  eapply returns_bind; [apply runs_ret; reflexivity|]. unfold keys. rewrite (keys_spec ps p (c_gates c) (proj1 Hc)).
  destruct (instantiate ps p) as [l|] eqn:El; cbn [hcheck].
  2: { eapply runs_weaken; [apply Hthrow|]. intros o ->. exists [], (SThrown s). split; [auto|]. split; [split; reflexivity|exact Hs]. }
  eapply returns_bind; [apply runs_ret; reflexivity|]. rewrite (proj2 Hc).
  apply (run_items_runs n L ps Hn HL p (c_gates c) l (proj1 Hc) El); auto.
  - apply Forall_forall. intros q Hq. destruct (N.ltb_spec q n) as [|Hle]; [assumption|].
    enough (existsb (fun q => n <=? q) (program_operands p) = true) by congruence. apply existsb_exists. exists q. split; [assumption|lia].
  - intros q. rewrite N.bits_0. split; [discriminate|intros []].
Qed.
