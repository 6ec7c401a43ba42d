(** Circuit::optimize: the theorem about runs, when no qubit is lost, when nothing throws. *)
From Verif Require Export OptimizeProofs7.
From Coq Require Import ZifyBool ZifyN ZifyNat Permutation Lra.

Theorem optimize_correct vf mb n c p c' : n < 64 -> circuit_is c p -> Forall (fun q => q < n) (program_operands p) -> ordinary c -> norm_safe n p ->
  optimize vf mb c = Ok c' -> optimize_loses vf mb c = false ->
  exists p' (theta : R), circuit_is c' p' /\ (Rabs theta <= (INR (length (c_gates c)) + 1) * / 10 ^ 12)%R /\
    (length (c_gates c') <= length (c_gates c) + 1)%nat /\
    forall ps us s s', run_program watch_all n ps p us s (SDone (turned theta s')) <-> run_program watch_all n ps p' us s (SDone s').
Proof.
  intros Hn [Hr Hc] HF Ho Hns H Hl. unfold optimize in H. inv_bind H. rename v into st. unfold optimize_loses in Hl. rewrite E in Hl.
  assert (Ha : after (required_n_qubits c) n (exists i c, In (i, c) p /\ item_measures i) st ([] ++ p)).
  { eapply inv_loop; [exact Hn|apply inv_start; exact Hn|exact Hr|exact Hc|exact HF|..|exact E|exact Hl].
    - intros i f Hi Hm. eauto.
    - exact Ho.
    - exact Hns. }
  destruct (inv_finish _ _ _ _ Hn _ _ _ Ha H) as (p' & t & Hp' & HF' & Ht & Hlen & Hi). cbn [app] in *.
  assert (El : length (c_gates c) = length p) by (rewrite (Forall2_len _ _ _ Hr); apply map_length).
  exists p', t. rewrite El. split; [assumption|]. split; [assumption|]. split; [assumption|]. intros ps us s s'. unfold run_program.
  assert (G : forall q, Forall (fun q => q < n) (program_operands q) -> existsb (fun x => n <=? x) (program_operands q) = false).
  { intros q Hq. apply not_true_is_false. rewrite existsb_exists. intros (x & Hx & Hle). rewrite Forall_forall in Hq. specialize (Hq x Hx). lia. }
  rewrite !G by assumption. destruct (Hi ps) as [[-> ->]|(l & l' & -> & -> & Hu)]; [split; intros [_ X]; discriminate|].
  rewrite !dexec_spec. split; intros [ms H']; exists ms; now apply Hu.
Qed.

(** ** Merging gates that do not cancel *)
Lemma make_mask vf k g : call_typed k -> make vf k = Ok g -> forall i, N.testbit (base_operands (g_base g)) i = true <-> In i (call_operands k).
Proof. intros Hty H i. destruct (acts_spec g (act_of k) (acts_factory vf k g Hty H)) as (qs & f & E & _ & Hi & _). injection E as <- _. apply Hi. Qed.
Lemma made_fixed_wf vf k g : call_typed k -> make vf k = Ok g -> gate_wf g.
Proof. intros Hty H. apply (means_wf _ _ _ _ (make_means vf k g Hty H)). Qed.
Lemma operands_of_controls c cv : c < two64 -> map fst (with_values (mask_to_vector c) (mask_to_values c cv)) = bits c.
Proof. intros H. rewrite with_values_ctrls by assumption. apply map_fst_ctrls. Qed.

Section Keeps.
  Variables (vf : bool) (e1 e2 : tgate).
  Hypotheses (W1 : gate_wf (snd e1)) (W2 : gate_wf (snd e2)).
  Notation mask e := (base_operands (g_base (snd e))).
  Definition keeps_mask (r : res (tgate * R)) : Prop := forall e ph, r = Ok (e, ph) -> gate_wf (snd e) /\ mask e = N.lor (mask e1) (mask e2) /\ may_cancel (CElem e) = false.

  Lemma base_mask_lt g : gate_wf g -> base_operands (g_base g) < two64.
  Proof. intros [(_ & _ & Ht & Hc) _]. unfold base_operands, two64 in *. now apply lor_u64_pow2. Qed.
  Lemma dense_keeps : keeps_mask (merge_gate_dense_matrix vf (snd e1) (snd e2)).
  Proof.
    intros e ph H. unfold merge_gate_dense_matrix in H. cbv zeta in H.
    set (common := N.land (N.land (g_c (g_base (snd e1))) (g_c (g_base (snd e2)))) (not64 (N.lxor (g_cv (g_base (snd e1))) (g_cv (g_base (snd e2)))))) in *.
    set (merged := N.land (N.lor (N.lor (g_t (g_base (snd e1))) (g_c (g_base (snd e1)))) (N.lor (g_t (g_base (snd e2))) (g_c (g_base (snd e2))))) (not64 common)) in *.
    inv_bind H. inv_bind H. inv_bind H. injection H as <- _. cbn [snd]. split; [apply (made_fixed_wf vf) with (2 := E1); exact I|]. split.
    - pose proof (base_mask_lt _ W1) as L1. pose proof (base_mask_lt _ W2) as L2. unfold base_operands in L1, L2.
      assert (Lm : merged < two64) by (unfold merged, two64 in *; apply land_lt; now apply lor_u64_pow2).
      assert (Lc : common < two64) by (destruct W1 as [(_ & _ & _ & Hc) _]; unfold common, two64 in *; apply land_lt; now apply land_lt).
      apply N.bits_inj. intros i. apply eq_true_iff_eq. rewrite (make_mask vf _ v1) with (2 := E1) by exact I. unfold call_operands. cbn [call_targets call_controls]. rewrite operands_of_controls by assumption.
      rewrite in_app_iff, (mask_to_vector_bits merged) by assumption. rewrite !in_bits. unfold merged, base_operands. rewrite land_not64 by (unfold two64 in *; now apply lor_u64_pow2).
      rewrite N.ldiff_spec. destruct (N.testbit common i) eqn:Ecm.
      + unfold common in Ecm. rewrite !N.land_spec in Ecm. apply andb_true_iff in Ecm. destruct Ecm as [Ecm _]. apply andb_true_iff in Ecm. destruct Ecm as [E3 E4].
        rewrite !N.lor_spec, E3, E4, !orb_true_r. cbn [negb andb]. split; auto.
      + cbn [negb]. rewrite andb_true_r. split; [intros [H|H]; [assumption|discriminate]|auto].
    - apply make_kind in E1. destruct v1; try contradiction; reflexivity.
  Qed.
  Lemma rot_keeps k1 b1 k2 b2 k ph : seen_type e1 = Some (EStd k1 b1) -> seen_type e2 = Some (EStd k2 b2) ->
    hd 0 (gate_target_list (snd e1)) = hd 0 (gate_target_list (snd e2)) -> g_c (g_base (snd e1)) = g_c (g_base (snd e2)) ->
    (forall b, may_cancel (CElem (true, EStd k b)) = false) -> keeps_mask (return1 vf e1 k ph).
  Proof.
    intros S1 S2 Ht Hc Hk e ph' H. unfold return1, returning in H. inv_bind H. injection H as <- _. cbn [snd].
    destruct e1 as [t1 g1], e2 as [t2 g2]. cbn [snd seen_type fst] in *. destruct t1, t2; try discriminate. injection S1 as ->. injection S2 as ->.
    destruct (sem_std k1 b1 W1) as (q & Ht1 & Hq & _ & Hh1 & _). destruct (sem_std k2 b2 W2) as (q2 & Ht2 & _ & _ & Hh2 & _). cbn [g_base] in *.
    rewrite Hh1, Hh2 in Ht. subst q2. split; [apply (made_fixed_wf vf) with (2 := E); exact I|]. split.
    - apply N.bits_inj. intros i. apply eq_true_iff_eq. rewrite (make_mask vf _ v) with (2 := E) by exact I. unfold call_operands. cbn [call_targets call_controls].
      unfold gate_control_list, gate_control_values. cbn [g_base]. rewrite operands_of_controls by (destruct W1 as [(_ & _ & _ & L) _]; exact L). cbn [gate_target_list snd g_base] in Hh1. rewrite Hh1.
      unfold base_operands. rewrite Ht1, Ht2, <- Hc, N.lor_diag, N.lor_spec, orb_true_iff, pow2_tb, in_app_iff, in_bits. simpl. rewrite N.eqb_eq. intuition congruence.
    - apply make_kind in E. destruct v; try contradiction. cbn [kind_of] in E. subst. apply Hk.
  Qed.
  Lemma phases_keep b1 p1 b2 p2 p ph : seen_type e1 = Some (EGlobalPhase b1 p1) -> seen_type e2 = Some (EGlobalPhase b2 p2) -> g_c (g_base (snd e1)) = g_c (g_base (snd e2)) ->
    keeps_mask (returning vf (CallGlobalPhase p (gate_control_list (snd e1)) (gate_control_values (snd e1))) ph).
  Proof.
    intros S1 S2 Hc e ph' H. unfold returning in H. inv_bind H. injection H as <- _. cbn [snd].
    destruct e1 as [t1 g1], e2 as [t2 g2]. cbn [snd seen_type fst] in *. destruct t1, t2; try discriminate. injection S1 as ->. injection S2 as ->. cbn [g_base] in *.
    destruct W1 as [(_ & _ & _ & L) Hz1]. destruct W2 as [_ Hz2]. cbn [g_base] in *. split; [apply (made_fixed_wf vf) with (2 := E); exact I|]. split.
    - apply N.bits_inj. intros i. apply eq_true_iff_eq. rewrite (make_mask vf _ v) with (2 := E) by exact I. unfold call_operands. cbn [call_targets call_controls].
      unfold gate_control_list, gate_control_values. cbn [g_base]. rewrite operands_of_controls by exact L. unfold base_operands. rewrite Hz1, Hz2, <- Hc, N.lor_diag, N.lor_0_l. cbn [app]. apply in_bits.
    - apply make_kind in E. destruct v; try contradiction. reflexivity.
  Qed.
  Hypotheses (C1 : may_cancel (CElem e1) = false) (C2 : may_cancel (CElem e2) = false) (Z1 : mask e1 <> 0) (Z2 : mask e2 <> 0).
  Lemma special_keeps : g_c (g_base (snd e1)) = g_c (g_base (snd e2)) -> forall r,
    or_else (merge_phases vf e1 e2)
             (or_else (merge_paulis1 vf e1 e2)
             (or_else (merge_paulis vf e1 e2)
             (or_else (merge_table vf e1 e2 get_oct_phase oct_phase_gate 8)
             (or_else (merge_rotations vf e1 e2 rz_view GU1)
             (or_else (merge_table vf e1 e2 get_quad_rx quad_rx_gate 4)
             (or_else (merge_rotations vf e1 e2 rx_view GRX)
             (or_else (merge_table vf e1 e2 get_quad_ry quad_ry_gate 4)
             (or_else (merge_rotations vf e1 e2 ry_view GRY)
                      (merge_swaps vf e1 e2))))))))) = Some r -> keeps_mask r.
  Proof.
    intros Hc r H.
    assert (Hrot : forall view k k1 b1 k2 b2, seen_type e1 = Some (EStd k1 b1) -> seen_type e2 = Some (EStd k2 b2) -> (forall a b, may_cancel (CElem (true, EStd (k a) b)) = false) ->
      merge_rotations vf e1 e2 view k = Some r -> keeps_mask r).
    { intros view k k1 b1 k2 b2 S1 S2 Hk Hr. unfold merge_rotations in Hr. destruct (view _) as [[a p]|]; [|discriminate]. destruct (view _) as [[a' p']|]; [|discriminate].
      destruct (N.eqb_spec (hd 0 (gate_target_list (snd e1))) (hd 0 (gate_target_list (snd e2)))) as [Ht|]; [|discriminate]. cbv zeta in Hr.
      destruct (_ || _); [|discriminate]. injection Hr as <-. eapply rot_keeps; try eassumption. apply Hk. }
    assert (V : forall e, may_cancel (CElem e) = false -> mask e <> 0 -> get_pauli_id (seen_type e) = None /\ (forall t, pauli_view (seen_type e) t = None) /\ get_oct_phase (seen_type e) = None /\
      get_quad_rx (seen_type e) = None /\ get_quad_ry (seen_type e) = None /\ (forall b, seen_type e <> Some (ESwap b))).
    { intros [[|] g] Hm Hz; [|repeat split; discriminate]. cbn [seen_type fst snd] in *.
      destruct g as [| |k b| | | | | | |]; try (repeat split; discriminate); try discriminate; [now elim Hz|destruct k; try discriminate; repeat split; discriminate]. }
    destruct (V e1 C1 Z1) as (P1 & P2 & P3 & P4 & P5 & P6). destruct (V e2 C2 Z2) as (Q1 & Q2 & Q3 & Q4 & Q5 & Q6).
    assert (A1 : merge_paulis1 vf e1 e2 = None) by (unfold merge_paulis1; now rewrite P1).
    assert (A2 : merge_paulis vf e1 e2 = None) by (unfold merge_paulis; now rewrite P2).
    assert (A3 : merge_table vf e1 e2 get_oct_phase oct_phase_gate 8 = None) by (unfold merge_table; now rewrite P3).
    assert (A4 : merge_table vf e1 e2 get_quad_rx quad_rx_gate 4 = None) by (unfold merge_table; now rewrite P4).
    assert (A5 : merge_table vf e1 e2 get_quad_ry quad_ry_gate 4 = None) by (unfold merge_table; now rewrite P5).
    assert (A6 : merge_swaps vf e1 e2 = None) by (unfold merge_swaps; destruct (seen_type e1) as [[]|]; try reflexivity; now elim (P6 b)).
    rewrite A1, A2, A3, A4, A5, A6 in H. cbn [or_else] in H.
    destruct (merge_phases vf e1 e2) as [r'|] eqn:R0.
    { cbn [or_else] in H. injection H as ->. unfold merge_phases in R0. destruct (seen_type e1) as [g1|] eqn:S1; [|discriminate]. destruct g1; try discriminate.
      destruct (seen_type e2) as [g2|] eqn:S2; [|discriminate]. destruct g2; try discriminate. injection R0 as <-. eapply phases_keep; eassumption. }
    cbn [or_else] in H. assert (Hdone : forall view k, (forall a b, may_cancel (CElem (true, EStd (k a) b)) = false) -> (forall g a, view (Some g) = Some a -> g <> EI -> exists k b, g = EStd k b) -> view None = None ->
      merge_rotations vf e1 e2 view k = Some r -> keeps_mask r).
    { intros view k Hk Hvw Hn Hr. unfold merge_rotations in Hr. destruct (seen_type e1) as [g1|] eqn:S1; [|now rewrite Hn in Hr]. destruct (view (Some g1)) as [[a p]|] eqn:E1; [|discriminate].
      destruct (seen_type e2) as [g2|] eqn:S2; [|now rewrite Hn in Hr]. destruct (view (Some g2)) as [[a' p']|] eqn:E2; [|discriminate].
      destruct (Hvw _ _ E1) as (? & ? & ->); [intros ->; discriminate P1|]. destruct (Hvw _ _ E2) as (? & ? & ->); [intros ->; discriminate Q1|].
      eapply (Hrot view k); try eassumption; [reflexivity|reflexivity|]. unfold merge_rotations. rewrite S1, S2, E1, E2. exact Hr. }
    destruct (merge_rotations vf e1 e2 rz_view GU1) as [r'|] eqn:R1.
    { cbn [or_else] in H. injection H as ->. apply (Hdone rz_view GU1); try assumption; try reflexivity. intros g a Hg Hi. destruct g; try discriminate; [now elim Hi|eauto]. }
    cbn [or_else] in H. destruct (merge_rotations vf e1 e2 rx_view GRX) as [r'|] eqn:R2.
    { cbn [or_else] in H. injection H as ->. apply (Hdone rx_view GRX); try assumption; try reflexivity. intros g a Hg Hi. destruct g; try discriminate; [now elim Hi|eauto]. }
    cbn [or_else] in H. destruct (merge_rotations vf e1 e2 ry_view GRY) as [r'|] eqn:R3; [|discriminate].
    cbn [or_else] in H. injection H as ->. apply (Hdone ry_view GRY); try assumption; try reflexivity. intros g a Hg Hi. destruct g; try discriminate; [now elim Hi|eauto].
  Qed.
  Lemma merge_keeps : keeps_mask (merge_gate vf e1 e2).
  Proof.
    unfold merge_gate. destruct (_ || _); [intros e ph H; discriminate|].
    assert (Hno : forall e, mask e <> 0 -> seen_type e <> Some EI). { intros [[|] g] Hz; cbn [seen_type fst snd] in *; [|discriminate]. intros [= ->]. now apply Hz. }
    assert (Hgp : forall e b p, gate_wf (snd e) -> mask e <> 0 -> seen_type e = Some (EGlobalPhase b p) -> (g_c b =? 0) = false).
    { intros [[|] g] b p Hw Hz Hs; cbn [seen_type fst snd] in *; [|discriminate]. injection Hs as ->. apply N.eqb_neq. intros E. apply Hz. destruct Hw as [_ Ht]. cbn [g_base] in *. unfold base_operands. now rewrite Ht, E. }
    pose proof (Hno e1 Z1) as N1. pose proof (Hno e2 Z2) as N2.
    set (general := if negb _ then _ else _).
    assert (Hgen : keeps_mask general).
    { unfold general. destruct (N.eqb_spec (g_c (g_base (snd e1))) (g_c (g_base (snd e2)))) as [Ec|]; [|cbn [andb negb]; apply dense_keeps]. destruct (_ =? _); cbn [andb negb]; [|apply dense_keeps].
      match goal with |- keeps_mask (match ?x with _ => _ end) => destruct x as [r|] eqn:Er end; [|apply dense_keeps]. now apply special_keeps. }
    clearbody general. pose proof (fun b p => Hgp e1 b p W1 Z1) as G1. pose proof (fun b p => Hgp e2 b p W2 Z2) as G2.
    destruct (seen_type e1) as [g1|]; [destruct g1|]; try (elim N1; reflexivity).
    all: destruct (seen_type e2) as [g2|]; [destruct g2|]; try (elim N2; reflexivity); cbv zeta beta iota.
    all: rewrite ?(G1 _ _ eq_refl), ?(G2 _ _ eq_refl); exact Hgen.
  Qed.
End Keeps.

(** ** No qubit is lost when nothing cancels *)
Section NotLost.
  Variables (vf : bool) (mb nq : N).
  Definition solid (g : cgate) : Prop := exists e, g = CElem e /\ gate_wf (snd e) /\ may_cancel (CElem e) = false /\ operand_mask (CElem e) <> 0.
  Definition sound (st : ost) : Prop := Forall solid (o_pool st) /\ o_lost st = false.

  Lemma sound_at st k g : sound st -> pool_at st k = Ok g -> solid g.
  Proof. intros [H _] E. unfold pool_at in E. destruct (nth_error (o_pool st) k) as [g'|] eqn:Eg; [|discriminate]. injection E as <-. rewrite Forall_forall in H. apply H. eapply nth_error_In; eassumption. Qed.
  Lemma sound_push i f st st' : sound st -> o_push nq i f st = Ok st' -> sound st'.
  Proof. intros H E. unfold o_push in E. apply on_operands_ok in E. destruct E as [_ E]. now injection E as <-. Qed.
  Lemma sound_push_all ks : forall st st', sound st -> push_all nq ks st = Ok st' -> sound st'.
  Proof. induction ks as [|k ks IH]; intros st st' H E; cbn [push_all] in E; [now injection E as <-|]. inv_bind E. inv_bind E. eapply IH; [|eassumption]. eapply sound_push; eassumption. Qed.
  Lemma sound_waitfor g st st' : sound st -> solid g -> o_waitfor nq g st = Ok st' -> sound st'.
  Proof.
    intros [H1 H2] Hg E. unfold o_waitfor in E. apply on_operands_ok in E. destruct E as [_ E]. injection E as <-. split; cbn [o_pool o_lost].
    - apply Forall_app. auto.
    - rewrite H2. destruct Hg as (e & -> & _ & _ & Hz). now apply N.eqb_neq.
  Qed.
  Lemma sound_merge_all ks : forall g st g' st', sound st -> solid g -> merge_all vf ks g st = Ok (g', st') -> sound st' /\ solid g'.
  Proof.
    induction ks as [|k ks IH]; intros g st g' st' H Hg E; cbn [merge_all] in E; [now injection E as <- <-|]. inv_bind E. inv_bind E. destruct v0 as [g1 ph]. cbn [fst snd] in E.
    pose proof (sound_at _ _ _ H E0) as Hv. destruct Hv as (e1 & -> & W1 & C1 & Z1). destruct Hg as (e2 & -> & W2 & C2 & Z2).
    rewrite merge_any_elem in E1. inv_bind E1. destruct v as [e ph']. injection E1 as <- <-.
    destruct (merge_keeps vf e1 e2 W1 W2 C1 C2) with (3 := E2) as (Wg & Hm & Hc); [destruct e1; exact Z1|destruct e2; exact Z2|].
    apply IH in E; [exact E|..].
    - destruct H as [H1 H2]. split; [exact H1|]. cbn [o_lost]. rewrite H2. destruct e, e1, e2. cbn [operand_mask fst snd] in *. rewrite Hm, N.eqb_refl. reflexivity.
    - exists e. split; [reflexivity|]. split; [assumption|]. split; [assumption|]. destruct e, e1, e2. cbn [operand_mask fst snd] in *. rewrite Hm. intros Hz. apply N.lor_eq_0_l in Hz. contradiction.
  Qed.
  Lemma sound_gate g st st' : sound st -> solid g -> o_gate vf mb nq g st = Ok st' -> sound st'.
  Proof.
    intros H Hg E. unfold o_gate in E. inv_bind E. destruct v as [|k ks]; [eapply sound_waitfor; eassumption|]. do 5 inv_bind E. destruct (_ || _).
    - inv_bind E. match goal with m : (cgate * ost)%type |- _ => destruct m as [g' st1] end. destruct (sound_merge_all _ _ _ _ _ H Hg E6) as [Hs Hg']. eapply sound_waitfor; eassumption.
    - inv_bind E. eapply sound_waitfor; [|eassumption|eassumption]. eapply sound_push_all; eassumption.
  Qed.
  Lemma sound_step i f st st' : sound st -> (f = None -> match i with IGate (CElem e) => gate_wf (snd e) | IGate (CProb v _ _) => v = true | _ => True end) ->
    (forall g, i = IGate g -> f = None -> may_cancel g = false /\
      (without_operands g = true -> match g with CElem (true, EI) | CElem (true, EGlobalPhase _ _) | CMeas _ _ _ | CProb _ _ _ => True | _ => False end)) ->
    o_step vf mb nq i f st = Ok st' -> sound st'.
  Proof.
    intros H Hw Hc E.
    assert (Hfix : forall r, r = bindR (waiting_indices nq i st) (fun ks => bindR (push_all nq ks st) (fun st' => o_push nq i f st')) -> r = Ok st' -> sound st').
    { intros r -> Hr. inv_bind Hr. inv_bind Hr. eapply sound_push; [|eassumption]. eapply sound_push_all; eassumption. }
    unfold o_step in E. destruct f as [c|]; [eapply Hfix; [reflexivity|exact E]|]. destruct i as [g|g key]; [|eapply Hfix; [reflexivity|exact E]].
    specialize (Hw eq_refl). destruct (Hc g eq_refl eq_refl) as [Hm Hz]. destruct g as [[b e]|t bit r|v d gs].
    - assert (Hother : operand_mask (CElem (b, e)) <> 0 -> o_gate vf mb nq (CElem (b, e)) st = Ok st' -> sound st').
      { intros Hne. apply sound_gate; [assumption|]. exists (b, e). auto. }
      assert (Hne : (match b, e with true, EI | true, EGlobalPhase _ _ => False | _, _ => True end) -> operand_mask (CElem (b, e)) <> 0).
      { intros Hk Hmz. unfold without_operands in Hz. rewrite Hmz in Hz. specialize (Hz eq_refl). destruct b; [|contradiction]. destruct e; contradiction. }
      destruct b; [|apply Hother; [apply Hne; exact I|assumption]]. destruct e; try (apply Hother; [apply Hne; exact I|assumption]).
      + now injection E as <-.
      + destruct (N.eqb_spec (g_c b) 0) as [|Hcz]; [now injection E as <-|]. apply Hother; [|assumption]. cbn [operand_mask g_base]. unfold base_operands. intros Hmz. apply N.lor_eq_0_iff in Hmz. tauto.
    - eapply Hfix; [reflexivity|exact E].
    - subst v. eapply Hfix; [reflexivity|exact E].
  Qed.
  Lemma sound_loop l : forall fs st st', sound st ->
    (forall i f, In (i, f) (combine l fs) -> f = None -> match i with IGate (CElem e) => gate_wf (snd e) | IGate (CProb v _ _) => v = true | _ => True end) ->
    (forall g, In (IGate g, None) (combine l fs) -> may_cancel g = false /\
      (without_operands g = true -> match g with CElem (true, EI) | CElem (true, EGlobalPhase _ _) | CMeas _ _ _ | CProb _ _ _ => True | _ => False end)) ->
    o_loop vf mb nq l fs st = Ok st' -> sound st'.
  Proof.
    induction l as [|i l IH]; intros fs st st' H Hw Hc E; cbn [o_loop] in E; [now injection E as <-|]. destruct fs as [|f fs]; [discriminate|]. inv_bind E.
    apply (IH fs v st'); [|intros j g Hj; apply (Hw j g); now right|intros g Hj; apply Hc; now right|assumption].
    eapply sound_step; [exact H|..|exact E0].
    - intros Hf. apply (Hw i f); [now left|assumption].
    - intros g -> ->. apply Hc. now left.
  Qed.
End NotLost.
Theorem optimize_keeps_qubits vf mb c : ordinary c -> never_cancels c -> optimize_loses vf mb c = false.
Proof.
  intros Ho Hc. unfold optimize_loses. destruct (o_loop _ _ _ _ _ _) as [st| |] eqn:E; try reflexivity.
  assert (H : sound st); [|apply H]. eapply sound_loop; [..|exact E].
  - split; [constructor|reflexivity].
  - intros i f Hi Hf. specialize (Ho i f Hi Hf). destruct i as [[e|? ? ?|? ? ?]|]; try exact I; [|exact Ho]. apply made_wf, Ho.
  - exact Hc.
Qed.
