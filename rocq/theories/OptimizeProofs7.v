(** The loop of Circuit::optimize and its end. *)
From Verif Require Export OptimizeProofs6.
From Coq Require Import ZifyBool ZifyN ZifyNat Permutation Lra FunctionalExtensionality.

(** ** A qubit once lost stays lost *)
Lemma push_lost nq i f st st' : o_push nq i f st = Ok st' -> o_lost st' = o_lost st.
Proof. intros H. unfold o_push in H. apply on_operands_ok in H. destruct H as [_ H]. now injection H as <-. Qed.
Lemma push_all_lost nq ks : forall st st', push_all nq ks st = Ok st' -> o_lost st' = o_lost st.
Proof. induction ks as [|k ks IH]; intros st st' H; cbn [push_all] in H; [now injection H as <-|]. inv_bind H. inv_bind H. apply IH in H. apply push_lost in E0. congruence. Qed.
Lemma waitfor_lost nq g st st' : o_waitfor nq g st = Ok st' -> o_lost st' = false -> o_lost st = false.
Proof. intros H. unfold o_waitfor in H. apply on_operands_ok in H. destruct H as [_ H]. injection H as <-. cbn [o_lost]. now destruct (o_lost st). Qed.
Lemma merge_all_lost vf ks : forall g st g' st', merge_all vf ks g st = Ok (g', st') -> o_lost st' = false -> o_lost st = false.
Proof.
  induction ks as [|k ks IH]; intros g st g' st' H Hl; cbn [merge_all] in H; [now injection H as <- <-|]. inv_bind H. inv_bind H.
  specialize (IH _ _ _ _ H Hl). cbn [o_lost] in IH. now destruct (o_lost st).
Qed.
Lemma gate_lost vf mb nq g st st' : o_gate vf mb nq g st = Ok st' -> o_lost st' = false -> o_lost st = false.
Proof.
  intros H Hl. unfold o_gate in H. inv_bind H. destruct v as [|k ks]; [eapply waitfor_lost; eassumption|]. inv_bind H. inv_bind H. inv_bind H. inv_bind H. inv_bind H.
  destruct (_ || _).
  - inv_bind H. match goal with m : (cgate * ost)%type |- _ => destruct m as [g' st1] end. apply (waitfor_lost nq _ _ _ H) in Hl. eapply merge_all_lost; eassumption.
  - inv_bind H. apply (waitfor_lost nq _ _ _ H) in Hl. apply push_all_lost in E5. congruence.
Qed.
Lemma step_lost vf mb nq i f st st' : o_step vf mb nq i f st = Ok st' -> o_lost st' = false -> o_lost st = false.
Proof.
  intros H Hl.
  assert (Hfix : forall r, r = bindR (waiting_indices nq i st) (fun ks => bindR (push_all nq ks st) (fun st' => o_push nq i f st')) -> r = Ok st' -> o_lost st = false).
  { intros r -> Hr. inv_bind Hr. inv_bind Hr. apply push_lost in Hr. apply push_all_lost in E0. congruence. }
  unfold o_step in H. destruct f as [c|]; [eapply Hfix; [reflexivity|exact H]|]. destruct i as [g|g key]; [|eapply Hfix; [reflexivity|exact H]].
  destruct g as [[b e]|t bit r|v d gs].
  - destruct b; [|eapply gate_lost; eassumption]. destruct e; try (eapply gate_lost; eassumption).
    + now injection H as <-.
    + destruct (_ =? _); [now injection H as <-|eapply gate_lost; eassumption].
  - eapply Hfix; [reflexivity|exact H].
  - destruct v; [eapply Hfix; [reflexivity|exact H]|eapply gate_lost; eassumption].
Qed.
Lemma loop_lost vf mb nq l : forall fs st st', o_loop vf mb nq l fs st = Ok st' -> o_lost st' = false -> o_lost st = false.
Proof.
  induction l as [|i l IH]; intros fs st st' H Hl; cbn [o_loop] in H; [now injection H as <-|]. destruct fs as [|f fs]; [discriminate|]. inv_bind H.
  eapply step_lost; [eassumption|]. eapply IH; eassumption.
Qed.

Section Loop.
  Variables (vf : bool) (mb nq n : N) (M : Prop).
  Hypothesis Hn : n < 64.
  Notation Inv := (Inv nq n M).

  Lemma inv_merge_all ks : forall st pre W ss pout t m e s g' st', Inv st pre W [s] ss pout t m -> fine n M e s -> NoDup ks -> incl ks W ->
    (forall q k, In q (operands s) -> o_wait st q = Some k -> In k ks \/ ~ In k W) -> merge_all vf ks (CElem e) st = Ok (g', st') -> o_lost st' = false ->
    exists e' s' t' m' W', g' = CElem e' /\ fine n M e' s' /\ Inv st' pre W' [s'] ss pout t' m' /\
      (forall q k, In q (operands s') -> o_wait st' q = Some k -> ~ In k W').
  Proof.
    induction ks as [|k ks IH]; intros st pre W ss pout t m e s g' st' HI Hf Hnd Hinc Hno H Hl; cbn [merge_all] in H.
    - injection H as <- <-. exists e, s, t, m, W. split; [reflexivity|]. split; [assumption|]. split; [assumption|]. intros q k Hq Hw. destruct (Hno q k Hq Hw) as [[]|]. assumption.
    - inv_bind H. inv_bind H. destruct v0 as [g1 ph]. cbn [fst snd] in H. inversion Hnd as [|? ? Hk Hnd']; subst.
      pose proof (merge_all_lost vf ks _ _ _ _ H Hl) as Hl1.
      destruct (inv_merge vf nq n M Hn _ _ _ _ _ _ _ _ _ _ _ _ _ _ HI Hf (Hinc k (or_introl eq_refl)) E E0 eq_refl Hl1) as (e1 & s1 & t1 & -> & Hf1 & HI1 & Hl0 & Hop).
      assert (A : incl ks (remove Nat.eq_dec k W)) by (intros x Hx; apply in_remove_iff; split; [apply Hinc; now right|]; intros ->; contradiction).
      assert (B : forall q k', In q (operands s1) -> o_wait st q = Some k' -> In k' ks \/ ~ In k' (remove Nat.eq_dec k W)).
      { intros q k' Hq Hw. rewrite in_remove_iff. apply Hop in Hq. destruct Hq as [Hq|Hq].
        - right. destruct (i_act _ _ _ _ _ _ _ _ _ _ _ HI k (Hinc k (or_introl eq_refl))) as (_ & _ & Eq). apply Eq in Hq. assert (k' = k) by congruence. tauto.
        - destruct (Hno q k' Hq Hw) as [[->|Hin]|Hout]; [right; tauto|now left|right; tauto]. }
      exact (IH _ _ _ _ _ _ _ _ _ _ _ HI1 Hf1 Hnd' A B H Hl).
  Qed.
  Lemma waiting_facts st pre W ss pout t m qs : Inv st pre W [] ss pout t m -> NoDup (waiting qs (o_wait st)) /\ incl (waiting qs (o_wait st)) W.
  Proof.
    intros HI. split; [apply sort_unique_NoDup|]. intros k Hk. apply waiting_In in Hk. destruct Hk as (q & _ & Hw). destruct (i_wait _ _ _ _ _ _ _ _ _ _ _ HI q k Hw) as [_ [H|[]]]. assumption.
  Qed.
  Lemma waiting_indices_ok i st ks : waiting_indices nq i st = Ok ks -> ks = waiting (olist i) (o_wait st).
  Proof. intros H. unfold waiting_indices in H. apply on_operands_ok in H. destruct H as [_ H]. congruence. Qed.
  Definition after (st' : ost) (pre : program) : Prop := exists W ss pout t m, Inv st' pre W [] ss pout t m.
  Lemma inv_gate st pre W ss pout t m e s st' : Inv st pre W [] ss pout t m -> fine n M e s -> o_gate vf mb nq (CElem e) st = Ok st' -> o_lost st' = false ->
    after st' (pre ++ [(SFixed s, None)]).
  Proof.
    intros HI Hf H Hl. unfold o_gate in H. inv_bind H. apply waiting_indices_ok in E. destruct (waiting_facts _ _ _ _ _ _ _ (olist (IGate (CElem e))) HI) as [Hnd Hinc].
    assert (Hks : forall q k, In q (operands s) -> o_wait st q = Some k -> In k v).
    { intros q k Hq Hw. subst v. apply waiting_In. exists q. split; [|assumption]. now apply (fine_olist n M Hn e s q Hf). }
    rewrite <- E in Hnd, Hinc. pose proof (inv_tail _ _ _ Hn _ _ _ _ _ _ _ _ _ HI Hf) as HT.
    destruct v as [|k ks].
    - assert (A : forall q k, In q (operands s) -> o_wait st q = Some k -> ~ In k W) by (intros q k Hq Hw; elim (Hks q k Hq Hw)).
      destruct (inv_wait nq n M Hn _ _ _ _ _ _ _ _ _ _ HT Hf A H Hl) as [HI' _]. unfold after. eauto 8.
    - inv_bind H. inv_bind H. inv_bind H. inv_bind H. inv_bind H. destruct (_ || _).
      + inv_bind H. match goal with m : (cgate * ost)%type |- _ => destruct m as [g' st1] end. cbn [fst snd] in H. pose proof (waitfor_lost _ _ _ _ H Hl) as Hl1.
        assert (A : forall q k', In q (operands s) -> o_wait st q = Some k' -> In k' (k :: ks) \/ ~ In k' W) by (intros q k' Hq Hw; left; eauto).
        destruct (inv_merge_all _ _ _ _ _ _ _ _ _ _ _ _ HT Hf Hnd Hinc A E5 Hl1) as (e' & s' & t' & m' & W' & -> & Hf' & HI' & Hno).
        destruct (inv_wait nq n M Hn _ _ _ _ _ _ _ _ _ _ HI' Hf' Hno H Hl) as [HI'' _]. unfold after. eauto 8.
      + inv_bind H. destruct (inv_push_all nq n M Hn _ _ _ _ _ _ _ _ _ HI Hnd Hinc E5) as (W' & pout' & HI' & Hp & Hl' & HW & Hw).
        pose proof (inv_tail _ _ _ Hn _ _ _ _ _ _ _ _ _ HI' Hf) as HT'.
        assert (A : forall q k', In q (operands s) -> o_wait v4 q = Some k' -> ~ In k' W') by (intros q k' Hq Hw' Hin; apply Hw in Hw'; destruct Hw' as [Hw' Hout]; apply Hout; eauto).
        destruct (inv_wait nq n M Hn _ _ _ _ _ _ _ _ _ _ HT' Hf A H Hl) as [HI'' _]. unfold after. eauto 8.
  Qed.
  Lemma inv_fixed st pre W ss pout t m i f si st' : Inv st pre W [] ss pout t m -> represents i si -> Forall (fun q => q < n) (item_operands si) ->
    (item_measures si -> M) -> bindR (waiting_indices nq i st) (fun ks => bindR (push_all nq ks st) (fun st' => o_push nq i f st')) = Ok st' -> after st' (pre ++ [(si, f)]).
  Proof.
    intros HI Hr HF HM H. inv_bind H. inv_bind H. apply waiting_indices_ok in E. destruct (waiting_facts _ _ _ _ _ _ _ (olist i) HI) as [Hnd Hinc]. rewrite <- E in Hnd, Hinc.
    destruct (inv_push_all nq n M Hn _ _ _ _ _ _ _ _ _ HI Hnd Hinc E0) as (W' & pout' & HI' & _ & _ & HW & Hw).
    assert (A : forall ps g, item_gate ps si = Some g -> local g /\ forall q, In q (operands g) <-> In q (item_operands si)).
    { intros ps g Hg. clear - Hr Hg HF Hn. destruct Hr as [g0 s Hs|g0 key s Hs]; cbn [item_gate item_operands] in *.
      - injection Hg as <-. split; [now apply (stands_local n g0)|reflexivity].
      - destruct (ps key) as [v1|]; [|discriminate]. injection Hg as <-.
        assert (Hq : forall q, In q (operands (s v1)) <-> In q (operands (s 0%R))).
        { intros q. rewrite <- (pstands_mask g0 s v1 Hs q). now apply pstands_mask. }
        split; [|assumption]. apply (pstands_local n g0); try assumption. apply Forall_forall. intros q H'. apply Hq in H'. rewrite Forall_forall in HF. auto. }
    assert (B : forall q, In q (olist i) -> o_wait v0 q = None).
    { intros q Hq. destruct (o_wait v0 q) as [k|] eqn:Ek; [|reflexivity]. apply Hw in Ek. destruct Ek as [Ek Hout]. elim Hout. subst v. apply waiting_In. eauto. }
    destruct (inv_push nq n M Hn _ _ _ _ _ _ _ i f si st' HI' Hr HF HM A B H) as (pout'' & HI'' & _). unfold after. eauto 8.
  Qed.
  Lemma fine_alone e s : fine n M e s -> base_operands (g_base (snd e)) = 0 -> s = Act [] (gate_sem (snd e)).
  Proof.
    intros Hf Hz. destruct (fine_act n M Hn e s Hf) as (qs & -> & _ & _ & Hi & _). destruct qs as [|q qs]; [reflexivity|].
    pose proof (proj1 (Hi q) (or_introl eq_refl)) as H. rewrite Hz, N.bits_0 in H. discriminate.
  Qed.
  Lemma inv_step st pre i f si st' : after st pre -> represents i si -> Forall (fun q => q < n) (item_operands si) -> (item_measures si -> M) ->
    (f = None -> match i with IGate g => mergeable g | IParam _ _ => True end) ->
    (f = None -> M -> forall qs h, si = SFixed (Act qs h) -> forall psi, sqnorm n (h psi) = sqnorm n psi) ->
    o_step vf mb nq i f st = Ok st' -> o_lost st' = false -> after st' (pre ++ [(si, f)]).
  Proof.
    intros (W & ss & pout & t & m & HI) Hr HF HM Hmg Hks H Hl. unfold o_step in H.
    destruct f as [c|]; [eapply inv_fixed; eassumption|]. specialize (Hmg eq_refl). specialize (Hks eq_refl).
    destruct i as [g|g key]; [|eapply inv_fixed; eassumption]. inversion Hr as [g' s Hs|]; subst. cbn [item_operands] in HF.
    destruct g as [[b e]|q bit r|v d gs].
    - cbn [mergeable] in Hmg. destruct Hmg as [Hmade Hrz]. inversion Hs as [? ? ? Ha|? ? ? ? Hmm|]; subst; [|unfold make_measurement in Hmm; inv_bind Hmm; inv_bind Hmm; discriminate]. destruct (acts_local n _ _ Hn Ha HF) as (qs & E & _).
      assert (Hf : fine n M (b, e) s). { split; [assumption|]. split; [assumption|]. split; [assumption|]. split; [assumption|]. intros HM' psi. cbn [snd]. apply (Hks HM' qs). now rewrite E. }
      assert (Hother : o_gate vf mb nq (CElem (b, e)) st = Ok st' -> after st' (pre ++ [(SFixed s, None)])) by (intros H'; eapply inv_gate; eassumption).
      destruct b; [|now apply Hother]. destruct e; try (now apply Hother).
      + injection H as <-. rewrite (fine_alone _ s Hf eq_refl). cbn [snd].
        assert (A : forall psi x, gate_sem EI psi x = (Cexpi 0 * psi x)%C) by (intros psi x; rewrite sem_I, Cexpi_0; ring).
        pose proof (inv_phase nq n M Hn _ _ _ _ _ _ _ _ _ HI A) as HI'. rewrite Rplus_0_r in HI'. destruct st as [o p po w lo]. cbn [o_out o_phase o_pool o_wait o_lost] in HI'. unfold after. eauto 8.
      + destruct (g_c b =? 0) eqn:Ec; [|now apply Hother]. apply N.eqb_eq in Ec. injection H as <-. destruct (acts_spec _ _ Ha) as (? & ? & _ & Hw & _).
        assert (Ht : g_t b = 0) by apply Hw.
        rewrite (fine_alone _ s Hf) by (cbn [snd g_base]; unfold base_operands; now rewrite Ht, Ec). cbn [snd].
        assert (A : forall psi y, gate_sem (EGlobalPhase b phase) psi y = (Cexpi phase * psi y)%C) by (intros psi y; rewrite sem_global_phase by assumption; now rewrite Ec, ctrl_none).
        pose proof (inv_phase nq n M Hn _ _ _ _ _ _ _ _ _ HI A) as HI'. unfold after. eauto 8.
    - eapply inv_fixed; eassumption.
    - cbn [mergeable] in Hmg. subst v. eapply inv_fixed; eassumption.
  Qed.
  Lemma inv_loop l : forall fs p pre st st', after st pre -> Forall2 represents l (map fst p) -> fs = map snd p ->
    Forall (fun q => q < n) (program_operands p) -> (forall i c, In (i, c) p -> item_measures i -> M) ->
    (forall i f, In (i, f) (combine l fs) -> f = None -> match i with IGate g => mergeable g | IParam _ _ => True end) ->
    (M -> forall qs f, In (SFixed (Act qs f), None) p -> forall psi, sqnorm n (f psi) = sqnorm n psi) ->
    o_loop vf mb nq l fs st = Ok st' -> o_lost st' = false -> after st' (pre ++ p).
  Proof.
    induction l as [|i l IH]; intros fs p pre st st' Ha Hr -> HF HM Hmg Hks H Hl; cbn [o_loop] in H.
    - injection H as <-. inversion Hr as [E|]. destruct p; [|discriminate]. now rewrite app_nil_r.
    - destruct p as [|[si f] p]; [inversion Hr|]. cbn [map fst snd] in *. inversion Hr as [|? ? ? ? H1 H2]; subst. inv_bind H.
      unfold program_operands in HF. cbn [flat_map fst] in HF. apply Forall_app in HF. destruct HF as [HF1 HF2].
      pose proof (loop_lost vf mb nq l _ _ _ H Hl) as Hl1.
      assert (Ha1 : after v (pre ++ [(si, f)])).
      { eapply inv_step; [exact Ha|exact H1|exact HF1|..|exact E|exact Hl1].
        - apply (HM si f). now left.
        - intros ->. apply (Hmg i None); [now left|reflexivity].
        - intros -> HM' qs h -> . apply (Hks HM' qs). now left. }
      specialize (IH (map snd p) p (pre ++ [(si, f)]) v st' Ha1 H2 eq_refl HF2). rewrite <- app_assoc in IH. apply IH; try assumption.
      + intros j c Hj. apply (HM j c). now right.
      + intros j g Hj. apply (Hmg j g). now right.
      + intros HM' qs h Hj. apply (Hks HM' qs). now right.
  Qed.
  Lemma inv_start : after o_start [].
  Proof.
    exists [], [], [], 0%R, 0%nat. constructor; cbn [o_start o_pool o_out o_wait o_phase map length plain]; try (now constructor); try discriminate; try contradiction.
    - rewrite Rminus_0_r, Rabs_R0. simpl. lra.
    - intros ps. right. exists [], []. split; [reflexivity|]. split; [reflexivity|]. apply upto_refl.
  Qed.
  Lemma take_all_ok st pre W ss pout t m ks : Inv st pre W [] ss pout t m -> forall l, take_all ks st = Ok l ->
    Forall2 represents l (map SFixed (map (sg ss) ks)) /\ Forall (fun s => Forall (fun q => q < n) (operands s)) (map (sg ss) ks).
  Proof.
    intros HI. induction ks as [|k ks IH]; intros l H; cbn [take_all] in H; [injection H as <-; split; constructor|]. inv_bind H. inv_bind H. injection H as <-.
    destruct (IH _ E0) as [IH1 IH2]. unfold pool_at in E. destruct (nth_error (o_pool st) k) as [g|] eqn:Eg; [|discriminate]. injection E as <-.
    destruct (pool_sg _ _ _ Hn _ _ _ _ _ _ _ _ _ _ HI Eg) as (e & -> & (_ & Ha & HF & _) & _). cbn [map]. split; constructor; try assumption. constructor. destruct e. now constructor.
  Qed.
  Lemma instantiate_app ps p q : instantiate ps (p ++ q) =
    match instantiate ps p, instantiate ps q with Some l, Some r => Some (l ++ r) | _, _ => None end.
  Proof.
    induction p as [|[j c] p IH]; cbn [app instantiate]; [now destruct (instantiate ps q)|]. rewrite IH. destruct (item_gate ps j); destruct (instantiate ps p); destruct (instantiate ps q); reflexivity.
  Qed.
  Lemma instantiate_plain ps l : instantiate ps (map (fun s => (SFixed s, None)) l) = Some (plain l).
  Proof. induction l as [|s l IH]; cbn [map instantiate plain item_gate]; [reflexivity|]. rewrite IH. reflexivity. Qed.
  Lemma inv_finish st p c' : after st p -> o_finish vf nq st = Ok c' -> exists p' t, circuit_is c' p' /\ Forall (fun q => q < n) (program_operands p') /\
    (Rabs t <= (INR (length p) + 1) * eps)%R /\ (length (c_gates c') <= length p + 1)%nat /\
    forall ps, (instantiate ps p = None /\ instantiate ps p' = None) \/ exists l l', instantiate ps p = Some l /\ instantiate ps p' = Some l' /\ upto n t l l'.
  Proof.
    intros (W & ss & pout & t & m & HI) H. unfold o_finish in H. inv_bind H. inv_bind H. injection H as <-.
    set (ks := waiting (seqN nq) (o_wait st)) in *. destruct (take_all_ok _ _ _ _ _ _ _ ks HI v E) as [Hrep Hbel].
    assert (HP : Permutation W ks).
    { apply NoDup_Permutation; [apply (i_nodup _ _ _ _ _ _ _ _ _ _ _ HI)|apply sort_unique_NoDup|]. intros k. unfold ks. rewrite waiting_In. split.
      - intros Hk. destruct (i_act _ _ _ _ _ _ _ _ _ _ _ HI k Hk) as (_ & Hne & Hop). destruct (operands (sg ss k)) as [|q qs] eqn:Eq; [contradiction|].
        assert (Hw : o_wait st q = Some k) by (apply Hop; now left). exists q. split; [|assumption]. apply in_seqN. apply (i_wait _ _ _ _ _ _ _ _ _ _ _ HI q k Hw).
      - intros (q & _ & Hw). destruct (i_wait _ _ _ _ _ _ _ _ _ _ _ HI q k Hw) as [_ [Hk|[]]]. assumption. }
    assert (Hlen : length v = length W) by (rewrite (Forall2_len _ _ _ Hrep), !map_length; symmetry; now apply Permutation_length).
    set (rest := map (fun k => sg ss k) ks) in *. set (p1 := pout ++ map (fun s => (SFixed s, None)) rest : program).
    assert (H1 : Forall2 represents (map fst (o_out st ++ map (fun i => (i, None)) v)) (map fst p1)).
    { unfold p1. rewrite !map_app, !map_map. cbn [fst]. apply Forall2_app; [apply (i_out _ _ _ _ _ _ _ _ _ _ _ HI)|]. rewrite map_id. exact Hrep. }
    assert (H2 : map snd (o_out st ++ map (fun i => (i, None)) v) = map snd p1).
    { unfold p1. rewrite !map_app, !map_map. cbn [snd]. rewrite (i_conds _ _ _ _ _ _ _ _ _ _ _ HI). f_equal. unfold rest. rewrite map_map.
      assert (G : forall {A B} (l : list A) (r : list B), length l = length r -> map (fun _ : A => @None cond) l = map (fun _ : B => @None cond) r).
      { intros A B l. induction l as [|a l IH]; intros [|b r] Hx; try discriminate; [reflexivity|]. cbn [map]. f_equal. apply IH. now injection Hx. }
      apply G. rewrite (Forall2_len _ _ _ Hrep). unfold rest. now rewrite !map_length. }
    assert (H3 : Forall (fun q => q < n) (program_operands p1)).
    { unfold p1, program_operands. rewrite flat_map_app. apply Forall_app. split; [apply (i_below _ _ _ _ _ _ _ _ _ _ _ HI)|]. apply Forall_forall. intros q Hq. apply in_flat_map in Hq.
      destruct Hq as ([i c] & Hi & Hq). apply in_map_iff in Hi. destruct Hi as (s & Es & Hs). injection Es as <- <-. cbn [fst item_operands] in Hq. rewrite Forall_forall in Hbel. specialize (Hbel s Hs).
      rewrite Forall_forall in Hbel. auto. }
    assert (H4 : forall ps, (instantiate ps p = None /\ instantiate ps p1 = None) \/ exists l l', instantiate ps p = Some l /\ instantiate ps p1 = Some l' /\ upto n t l l').
    { intros ps. destruct (i_runs _ _ _ _ _ _ _ _ _ _ _ HI ps) as [[Ha Hb]|(l & lo & Ha & Hb & Hu)]; unfold p1; rewrite instantiate_app, instantiate_plain, Hb; [now left|].
      right. exists l, (lo ++ plain rest). split; [assumption|]. split; [reflexivity|]. apply upto_trans0 with (lo ++ wl ss W).
      - cbn [plain map] in Hu. now rewrite app_nil_r in Hu.
      - replace (plain rest) with (wl ss ks) by (unfold plain, rest, wl; now rewrite map_map).
        pose proof (upto_app n 0 lo _ _ [] (Forall_nil _) (wl_perm _ _ _ Hn _ _ _ _ _ _ _ _ _ HI HP)) as Hu'. now rewrite !app_nil_r in Hu'. }
    pose proof (i_count _ _ _ _ _ _ _ _ _ _ _ HI) as Hcount. pose proof (i_phase _ _ _ _ _ _ _ _ _ _ _ HI) as Hph.
    assert (Heps : (0 <= eps)%R) by (unfold eps; apply Rlt_le, Rinv_0_lt_compat, pow_lt; lra).
    assert (Hm : (INR m <= INR (length p))%R) by (apply le_INR; lia).
    destruct (Rlt_dec _ _) as [Hbig|Hsmall].
    - inv_bind E0. injection E0 as <-. assert (Ha : acts v1 (act_of (CallGlobalPhase (o_phase st) [] []))) by (apply acts_factory with vf; [exact I|assumption]).
      exists (p1 ++ [(SFixed (act_of (CallGlobalPhase (o_phase st) [] [])), None)]), (t - o_phase st)%R. split; [|split; [|split; [|split]]].
      + split; cbn [c_gates c_conds]; rewrite (map_app _ (_ ++ _)), (map_app _ p1); [|now rewrite H2]. apply Forall2_app; [assumption|]. constructor; [|constructor]. constructor. now constructor.
      + unfold program_operands. rewrite flat_map_app. apply Forall_app. split; [assumption|]. constructor.
      + pose proof (Rmult_le_compat_r eps _ _ Heps Hm). lra.
      + cbn [c_gates]. rewrite !map_app, !app_length, !map_length, Hlen. cbn [length] in *. lia.
      + intros ps. destruct (H4 ps) as [[Ha1 Hb1]|(l & l' & Ha1 & Hb1 & Hu)]; rewrite instantiate_snoc, Hb1; [now left|]. right. cbn [item_gate].
        exists l, (l' ++ [(act_of (CallGlobalPhase (o_phase st) [] []), None)]). split; [assumption|]. split; [reflexivity|].
        apply upto_trans with l'; [assumption|]. apply upto_sym.
        pose proof (upto_app n (o_phase st) l' _ _ [] (Forall_nil _) (upto_nothing n (o_phase st) (fun psi => apply_mat [] [] (call_matrix (CallGlobalPhase (o_phase st) [] [])) psi) ltac:(
          intros psi x; unfold apply_mat; cbn [ctrl_ok forallb]; change (2 ^ N.of_nat (length (@nil N))) with 1; rewrite Csum_1; cbn [gather scatter call_matrix]; cbv [mat_id N.eqb]; ring))) as Hu'.
        rewrite !app_nil_r in Hu'. exact Hu'.
    - injection E0 as <-. exists p1, t. split; [split; assumption|]. split; [assumption|]. split; [|split; [|assumption]].
      + pose proof (Rmult_le_compat_r eps _ _ Heps Hm). apply Rnot_lt_le in Hsmall. change (/ 10 ^ 12)%R with eps in Hsmall.
        replace t with ((t - o_phase st) + o_phase st)%R by ring. eapply Rle_trans; [apply Rabs_triang|]. lra.
      + cbn [c_gates]. rewrite map_length, app_length, map_length, Hlen. cbn [length] in *. lia.
  Qed.
End Loop.
