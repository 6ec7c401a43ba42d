(** The special cases of merge_gate. *)
From Verif Require Export MergeProofs4 MergeSpec.
From Verif Require PauliTextSpec PauliTextProofs.
From Coq Require Import ZifyBool ZifyN ZifyNat Lra.

Lemma inverse_wf g g' : gate_wf g -> get_inverse g = Ok g' -> gate_wf g' /\ g_base g' = g_base g.
Proof.
  intros Hw H. destruct Hw as [Hb Hw]. destruct g as [|b ph|k b|b|b pc pt|b dst s|b p|b p a|b M u|b Sp].
  - injection H as <-. split; [split; assumption|reflexivity].
  - cbn [get_inverse g_base] in *. rewrite make_base_same in H by assumption. injection H as <-. split; [split; assumption|reflexivity].
  - cbn [get_inverse g_base] in *. destruct (std1_inverse k) as [k'| |] eqn:Ek; try discriminate. cbn [bindR] in H.
    rewrite make_base_same in H by assumption. injection H as <-. split; [split; assumption|reflexivity].
  - injection H as <-. split; [split; assumption|reflexivity].
  - injection H as <-. split; [split; assumption|reflexivity].
  - destruct Hw as (HP & Hl & -> & ->). cbn [get_inverse g_base g_t] in *.
    assert (HP' := perm_inverse_perm dst HP Hl). pose proof (perm_inverse_length dst) as Hle.
    rewrite make_permutation_impl_ok in H by (auto; lia). injection H as <-. rewrite Hle. split; [split; [assumption|]|reflexivity]. cbn. rewrite Hle. auto.
  - injection H as <-. split; [split; assumption|reflexivity].
  - cbn [get_inverse g_base] in *. rewrite make_pauli_base_same in H by assumption. injection H as <-. split; [split; assumption|reflexivity].
  - cbn [get_inverse g_base] in *. destruct u; [|discriminate]. rewrite make_base_same in H by assumption. injection H as <-.
    destruct Hw as [Hr Hc]. split; [split; [assumption|]|reflexivity]. cbn. auto.
  - discriminate.
Qed.
Lemma made_wf g : made g -> gate_wf (snd g).
Proof.
  induction 1 as [vf k g Hty H|t g g' _ IH H]; cbn [snd] in *.
  - apply (means_wf _ _ _ _ (make_means vf k g Hty H)).
  - now apply (inverse_wf g g').
Qed.

Lemma pow2_fits q n : q < n -> 2 ^ q < 2 ^ n.
Proof. intros. apply N.pow_lt_mono_r; lia. Qed.
Lemma sem_std k b : gate_wf (EStd k b) -> exists q, g_t b = 2 ^ q /\ q < 64 /\ N.testbit (g_c b) q = false /\
  hd 0 (gate_target_list (EStd k b)) = q /\
  forall psi x, gate_sem (EStd k b) psi x = apply_mat [q] (ctrls (g_c b) (g_cv b)) (std1_textbook k) psi x.
Proof.
  intros Hw. destruct (gate_lists _ Hw) as [Hl _]. destruct Hw as [(Hd & Hcv & Ht & Hc) [q Hq]]. cbn [g_base] in *. exists q.
  rewrite Hl, Hq, bits_pow2. split; [reflexivity|]. split; [|split; [|split; [reflexivity|]]].
  - rewrite Hq in Ht. unfold two64 in Ht. now apply pow2_lt_inv in Ht.
  - rewrite Hq in Hd. now apply pow2_tb_disj.
  - intros psi x. unfold gate_sem. cbn [g_base]. rewrite Hq, bits_pow2. apply apply_mat_ext_mat. apply std1_matrix_textbook.
Qed.
Lemma make_1 vf k q c cv : q < 64 -> c < two64 -> N.testbit c q = false -> exists g,
  make vf (Call1 k q (mask_to_vector c) (mask_to_values c cv)) = Ok g /\ gate_wf g /\ (forall n, q < n -> c < 2 ^ n -> gate_fits n g) /\
  forall psi x, gate_sem g psi x = apply_mat [q] (ctrls c cv) (std1_textbook k) psi x.
Proof.
  intros Hq Hc Hd. set (call := Call1 k q (mask_to_vector c) (mask_to_values c cv)).
  assert (Hv : call_valid call).
  { apply valid_mask_controls; [assumption|repeat constructor; simpl; tauto|repeat constructor; assumption|]. intros q' [<-|[]]. assumption. }
  destruct (make_complete vf call I Hv) as [g Hg]. exists g. split; [assumption|]. pose proof (make_means vf call g I Hg) as Hm. split; [apply Hm|].
  unfold call in Hm. cbn [call_targets call_controls call_matrix] in Hm. rewrite with_values_ctrls in Hm by assumption. split.
  - intros n Hqn Hcn. apply (means_fits n _ _ _ _ Hm). cbn [app]. constructor; [assumption|]. rewrite map_fst_ctrls. now apply bits_lt.
  - apply (means_sem _ _ _ _ Hm). reflexivity.
Qed.
Lemma sem_I psi x : gate_sem EI psi x = psi x.
Proof.
  unfold gate_sem. cbn [g_base g_t g_c g_cv get_matrix m_at]. change (bits 0) with (@nil N). unfold apply_mat. change (ctrls 0 0) with (@nil (N * bool)). cbn [ctrl_ok forallb].
  change (2 ^ N.of_nat (length (@nil N))) with 1. rewrite Csum_1. simpl. unfold mat_id. simpl. ring.
Qed.
Lemma sem_global_phase b p psi x : gate_wf (EGlobalPhase b p) ->
  gate_sem (EGlobalPhase b p) psi x = if ctrl_ok (ctrls (g_c b) (g_cv b)) x then (Cexpi p * psi x)%C else psi x.
Proof.
  intros [_ Ht]. cbn [g_base] in Ht. unfold gate_sem. cbn [g_base]. rewrite Ht. change (bits 0) with (@nil N). unfold apply_mat.
  change (2 ^ N.of_nat (length (@nil N))) with 1. rewrite Csum_1. cbn [gather scatter]. destruct (ctrl_ok _ x); [|reflexivity]. cbn [get_matrix m_at]. cbv [mat_id N.eqb]. ring.
Qed.
Lemma apply_mat_times ts cs z M psi x : apply_mat ts cs (fun i j => (z * M i j)%C) psi x = ((if ctrl_ok cs x then z else C1) * apply_mat ts cs M psi x)%C.
Proof.
  unfold apply_mat. destruct (ctrl_ok cs x); [|ring]. rewrite <- Csum_mul_l. apply Csum_ext. intros. ring.
Qed.
Lemma ctrl_none cv x : ctrl_ok (ctrls 0 cv) x = true. Proof. reflexivity. Qed.
Lemma wf_one q c cv : q < 64 -> c < two64 -> N.testbit c q = false -> wf_ops 64 [q] (ctrls c cv).
Proof.
  intros Hq Hc Hd. rewrite <- bits_pow2. apply wf_ops_masks; [now apply pow2_fits|exact Hc|]. apply N.bits_inj. intros i. rewrite N.land_spec, pow2_tb, N.bits_0.
  destruct (N.eqb_spec i q); [now subst|reflexivity].
Qed.

Lemma make_phase vf ph c cv : c < two64 -> exists g,
  make vf (CallGlobalPhase ph (mask_to_vector c) (mask_to_values c cv)) = Ok g /\ gate_wf g /\ (forall n, c < 2 ^ n -> gate_fits n g) /\
  forall psi x, gate_sem g psi x = if ctrl_ok (ctrls c cv) x then (Cexpi ph * psi x)%C else psi x.
Proof.
  intros Hc. set (call := CallGlobalPhase ph (mask_to_vector c) (mask_to_values c cv)).
  assert (Hv : call_valid call) by (apply valid_mask_controls; [assumption|constructor|constructor|intros q []]).
  destruct (make_complete vf call I Hv) as [g Hg]. exists g. split; [assumption|]. pose proof (make_means vf call g I Hg) as Hm. split; [apply Hm|].
  unfold call in Hm. cbn [call_targets call_controls call_matrix] in Hm. rewrite with_values_ctrls in Hm by assumption. split.
  - intros n Hcn. apply (means_fits n _ _ _ _ Hm). cbn [app]. rewrite map_fst_ctrls. now apply bits_lt.
  - intros psi x. rewrite (means_sem _ _ _ _ Hm) by reflexivity. unfold apply_mat. destruct (ctrl_ok _ x); [|reflexivity].
    change (2 ^ N.of_nat (length (@nil N))) with 1. rewrite Csum_1. reflexivity.
Qed.
Lemma seen_snd g e : seen_type g = Some e -> snd g = e.
Proof. destruct g as [[] e']; intros H; [now injection H|discriminate]. Qed.

Section Cases.
  Variables (vf : bool) (g1 g2 : tgate) (n : N).
  Hypothesis Hn : n < 64.
  Hypothesis W1 : gate_wf (snd g1).
  Hypothesis W2 : gate_wf (snd g2).
  Hypothesis Ec : g_c (g_base (snd g1)) = g_c (g_base (snd g2)).
  Hypothesis Ev : g_cv (g_base (snd g1)) = g_cv (g_base (snd g2)).

  Definition good (r : res (tgate * R)) : Prop := exists g phase delta, r = Ok (g, phase) /\ made g /\
    merges (snd g1) (snd g2) (snd g) phase delta /\ (Rabs delta < eps)%R /\ (is_rz g1 = false -> is_rz g2 = false -> delta = 0%R) /\
    (g_c (g_base (snd g1)) <> g_c (g_base (snd g2)) -> delta = 0%R).
  Definition good_case (c : case) : Prop := forall r, c = Some r -> good r.

  Lemma good_exact g phase : made g -> merges (snd g1) (snd g2) (snd g) phase 0 -> good (Ok (g, phase)).
  Proof. intros Hm H. exists g, phase, 0%R. split; [reflexivity|]. split; [assumption|]. split; [assumption|]. split; [|split; auto]. rewrite Rabs_R0. apply eps_pos. Qed.
  Lemma good_I : (forall psi x, gate_sem (snd g2) (gate_sem (snd g1) psi) x = psi x) -> good (returning vf CallI 0).
  Proof.
    intros H. apply (good_exact (true, EI)).
    - apply (made_call vf CallI); [exact I|reflexivity].
    - cbn [snd]. split; [|split].
      + apply (means_wf _ _ _ _ (make_means vf CallI EI I eq_refl)).
      + intros n' _ _. split; apply pow2_pos.
      + intros psi x. rewrite H, sem_I, Cexpi_0. destruct (ctrl_ok _ x); ring.
  Qed.

  (** Two one-target gates with the same operands. *)
  Lemma same_target k1 b1 k2 b2 : seen_type g1 = Some (EStd k1 b1) -> seen_type g2 = Some (EStd k2 b2) ->
    hd 0 (gate_target_list (snd g1)) = hd 0 (gate_target_list (snd g2)) ->
    exists q, hd 0 (gate_target_list (snd g1)) = q /\ q < 64 /\ N.testbit (g_c (g_base (snd g1))) q = false /\ g_c (g_base (snd g1)) < two64 /\
      (forall n, gate_fits n (snd g1) -> q < n) /\
      forall psi x, gate_sem (snd g2) (gate_sem (snd g1) psi) x =
        apply_mat [q] (ctrls (g_c (g_base (snd g1))) (g_cv (g_base (snd g1)))) (mat_mul 2 (std1_textbook k2) (std1_textbook k1)) psi x.
  Proof.
    destruct g1 as [t1 e1], g2 as [t2 e2]. cbn [snd seen_type fst] in *. destruct t1, t2; try discriminate. intros [= ->] [= ->] Eq.
    pose proof W1 as [(_ & _ & _ & Hc) _]. cbn [g_base] in *.
    destruct (sem_std k1 b1 W1) as (q & Ht1 & Hq & Hd & Hh & S1). destruct (sem_std k2 b2 W2) as (q2 & Ht2 & _ & _ & Hh2 & S2).
    assert (q2 = q) as -> by congruence. exists q. split; [assumption|]. split; [assumption|]. split; [assumption|]. split; [assumption|]. split.
    - intros n' [Hf _]. cbn [g_base] in Hf. rewrite Ht1 in Hf. now apply pow2_lt_inv in Hf.
    - intros psi x. rewrite S2, <- Ec, <- Ev. rewrite <- (apply_mat_mul 64) by now apply wf_one. apply apply_mat_ext. intros y. apply S1.
  Qed.
  Lemma good_1 k1 b1 k2 b2 k phase delta : seen_type g1 = Some (EStd k1 b1) -> seen_type g2 = Some (EStd k2 b2) ->
    hd 0 (gate_target_list (snd g1)) = hd 0 (gate_target_list (snd g2)) ->
    mat_eq 2 (mat_mul 2 (std1_textbook k2) (std1_textbook k1)) (fun i j => (Cexpi (phase + delta) * std1_textbook k i j)%C) ->
    (g_c (g_base (snd g1)) = 0 \/ phase = 0%R) -> (Rabs delta < eps)%R -> (is_rz g1 = false -> is_rz g2 = false -> delta = 0%R) ->
    good (return1 vf g1 k phase).
  Proof.
    intros V1 V2 Ht HM Hph Hdl Hrz. destruct (same_target k1 b1 k2 b2 V1 V2 Ht) as (q & Hh & Hq & Hd & Hc & Hfit & S).
    destruct (make_1 vf k q (g_c (g_base (snd g1))) (g_cv (g_base (snd g1))) Hq Hc Hd) as (g & Hg & Wg & Fg & Sg).
    exists (true, g), phase, delta. unfold return1, returning. rewrite Hh. unfold gate_control_list, gate_control_values. rewrite Hg. cbn [bindR snd].
    split; [reflexivity|]. split; [eapply made_call; [|exact Hg]; exact I|]. split; [|split; [assumption|split; [assumption|intros Hne; now elim Hne]]]. split; [assumption|]. split.
    - intros n' F1 F2. apply Fg; [auto|]. apply F1.
    - intros psi x. rewrite S, (apply_mat_ext_mat [q] _ _ _ psi HM), apply_mat_times, Sg, Cexpi_add.
      destruct Hph as [Hc0|Hp0].
      + rewrite Hc0 at 1 3. rewrite !ctrl_none. ring.
      + rewrite Hp0, Cexpi_0. destruct (ctrl_ok _ x); ring.
  Qed.
  Lemma good_1_id k1 b1 k2 b2 : seen_type g1 = Some (EStd k1 b1) -> seen_type g2 = Some (EStd k2 b2) ->
    hd 0 (gate_target_list (snd g1)) = hd 0 (gate_target_list (snd g2)) ->
    mat_eq 2 (mat_mul 2 (std1_textbook k2) (std1_textbook k1)) mat_id -> good (returning vf CallI 0).
  Proof.
    intros V1 V2 Ht HM. destruct (same_target k1 b1 k2 b2 V1 V2 Ht) as (q & _ & _ & _ & _ & _ & S). apply good_I. intros psi x.
    rewrite S, (apply_mat_ext_mat [q] _ _ _ psi HM). apply apply_mat_id. repeat constructor; simpl; tauto.
  Qed.

  (** ** Two global phases *)
  Lemma phases_good : good_case (merge_phases vf g1 g2).
  Proof.
    intros r H. unfold merge_phases in H. destruct (seen_type g1) as [[]|] eqn:V1; try discriminate. destruct (seen_type g2) as [[]|] eqn:V2; try discriminate.
    injection H as <-. apply seen_snd in V1, V2. pose proof W1 as [(_ & _ & _ & Hc) _].
    assert (B1 : g_base (snd g1) = b) by now rewrite V1. assert (B2 : g_base (snd g2) = b0) by now rewrite V2.
    destruct (make_phase vf (phase + phase0) (g_c (g_base (snd g1))) (g_cv (g_base (snd g1))) Hc) as (g & Hg & Wg & Fg & Sg).
    unfold returning, gate_control_list, gate_control_values. rewrite Hg. cbn [bindR]. apply good_exact; [eapply made_call; [|exact Hg]; exact I|]. cbn [snd].
    split; [assumption|]. split.
    - intros n' [_ F1] _. now apply Fg.
    - intros psi x. rewrite Sg, V2, V1, !sem_global_phase by (rewrite <- ?V1, <- ?V2; assumption). rewrite <- B1, <- B2, V1, <- Ec, <- Ev, V1. cbn [g_base].
      rewrite Cexpi_0, Cexpi_add. destruct (ctrl_ok (ctrls (g_c b) (g_cv b)) x); ring.
  Qed.

  (** ** X, Y, Z on the same qubit *)
  Lemma std_of_pauli_id v i : v <> Some EI -> get_pauli_id v = Some i -> exists k b, v = Some (EStd k b) /\ ((i = 1 /\ k = GX) \/ (i = 2 /\ k = GY) \/ (i = 3 /\ k = GZ)).
  Proof.
    intros H0 H. destruct v as [[]|]; try discriminate.
    - now elim H0.
    - destruct k; try discriminate; injection H as <-; eauto 8.
  Qed.
  Hypothesis NI1 : seen_type g1 <> Some EI.
  Hypothesis NI2 : seen_type g2 <> Some EI.
  Lemma paulis1_good : good_case (merge_paulis1 vf g1 g2).
  Proof.
    intros r H. unfold merge_paulis1 in H. destruct (get_pauli_id (seen_type g1)) as [i|] eqn:P1; [|discriminate]. destruct (get_pauli_id (seen_type g2)) as [j|] eqn:P2; [|discriminate].
    apply (std_of_pauli_id _ _ NI1) in P1. apply (std_of_pauli_id _ _ NI2) in P2.
    destruct P1 as (k1 & b1 & V1 & P1). destruct P2 as (k2 & b2 & V2 & P2).
    destruct (N.eqb_spec (hd 0 (gate_target_list (snd g1))) (hd 0 (gate_target_list (snd g2)))) as [Ht|]; [|discriminate].
    destruct P1 as [[-> ->]|[[-> ->]|[-> ->]]]; destruct P2 as [[-> ->]|[[-> ->]|[-> ->]]]; cbn [N.eqb Pos.eqb] in H; cbv iota in H.
    all: try (injection H as <-; eapply good_1_id; [exact V1|exact V2|exact Ht|]; first [exact PP1|exact PP2|mat2_cases; rewrite mat_mul_2; unfold std1_textbook, pauli1, mat_id; simpl; c_eq; lra]).
    all: destruct (N.eqb_spec (g_c (g_base (snd g1))) 0) as [Hc0|]; [|discriminate]; injection H as <-.
    all: eapply good_1 with (delta := 0%R); [exact V1|exact V2|exact Ht| |now left|rewrite Rabs_R0; apply eps_pos|reflexivity].
    all: rewrite Rplus_0_r; replace (- PI / 2)%R with (- (PI / 2))%R by lra.
    all: mat2_cases; rewrite mat_mul_2; unfold std1_textbook, pauli1; simpl; c_eq; rewrite ?cos_neg, ?sin_neg, ?cos_PI2, ?sin_PI2; lra.
  Qed.

  (** ** Pauli strings *)
  Lemma pauli_view_ok v e target : v = Some e -> e <> EI -> gate_wf e -> popcount (g_t (g_base e)) < 64 -> (forall k b, e = EStd k b -> hd 0 (gate_target_list e) = target) ->
    forall rp, pauli_view v target = Some rp -> exists p, rp = Ok p /\ pauli_u64 p /\ g_t (g_base e) = N.lor (p_bf p) (p_pf p) /\
      forall psi x, gate_sem e psi x = if ctrl_ok (ctrls (g_c (g_base e)) (g_cv (g_base e))) x then pauli_act p psi x else psi x.
  Proof.
    intros -> He W Hpc Htgt rp H. unfold pauli_view in H.
    assert (Hstd : forall k b i, e = EStd k b -> (i = 1 \/ i = 2 \/ i = 3) -> std1_textbook k = pauli1 i -> exists p, pauli_from_lists [target] [i] C1 = Ok p /\ pauli_u64 p /\ g_t (g_base e) = N.lor (p_bf p) (p_pf p) /\
      forall psi x, gate_sem e psi x = if ctrl_ok (ctrls (g_c (g_base e)) (g_cv (g_base e))) x then pauli_act p psi x else psi x).
    { intros k b i -> Hi Hk. destruct (sem_std k b W) as (q & Ht & Hq & Hd & Hh & S). specialize (Htgt k b eq_refl). rewrite Hh in Htgt. subst target.
      assert (Hnz : negb (i =? 0) = true) by lia.
      destruct (PauliTextProofs.lists_accepts [q] [i] C1) as (p & Hp & Hcoef & H1 & H2 & Hid); [reflexivity| |].
      { unfold PauliTextSpec.legal_factors, PauliTextSpec.nontrivial. cbn [combine filter snd]. rewrite Hnz. cbn [map fst]. repeat constructor; cbn; try lia; tauto. }
      unfold PauliTextSpec.nontrivial in Hid. cbn [combine filter snd] in Hid. rewrite Hnz in Hid. cbn [map fst In] in Hid.
      assert (Hbits : bits (N.lor (p_bf p) (p_pf p)) = [q]).
      { apply bits_unique; [repeat constructor|]. intros j. rewrite N.lor_spec. cbn [In]. destruct (N.eq_dec j q) as [->|Hne].
        - pose proof (Hid q i (or_introl (or_introl eq_refl))) as E. unfold pauli_id_of in E. destruct (N.testbit (p_bf p) q), (N.testbit (p_pf p) q); simpl; intuition lia.
        - assert (E : pauli_id_of (p_bf p) (p_pf p) j = 0). { apply Hid. right. split; [reflexivity|]. intros [E|[]]. congruence. }
          unfold pauli_id_of in E. destruct (N.testbit (p_bf p) j), (N.testbit (p_pf p) j); simpl; try discriminate E; intuition congruence. }
      exists p. split; [assumption|]. split; [split; assumption|]. split.
      - cbn [g_base]. rewrite Ht. apply N.bits_inj. intros j. apply eq_iff_eq_true. rewrite <- !in_bits, Hbits, bits_pow2. reflexivity.
      - intros psi x. rewrite S. cbn [g_base]. unfold pauli_act. rewrite Hbits. cbn [map]. rewrite (Hid q i (or_introl (or_introl eq_refl))), Hcoef.
        unfold apply_mat. destruct (ctrl_ok _ x); [|reflexivity]. cbn [ctrl_ok forallb]. apply Csum_ext. intros j Hj. rewrite Hk.
        change (2 ^ N.of_nat (length [q])) with 2 in Hj. pose proof (gather_lt [q] x) as Hg. change (2 ^ N.of_nat (length [q])) with 2 in Hg.
        apply lt2_cases in Hj. apply lt2_cases in Hg. destruct Hj as [->| ->], Hg as [-> | ->]; cbn; ring. }
    destruct e; try discriminate H.
    - now elim He.
    - destruct k; try discriminate H; cbn [get_pauli_id] in H; injection H as <-; eapply Hstd; try reflexivity; auto.
    - injection H as <-. exists p. pose proof W as [(Hd & Hcv & Ht & Hc) Hw]. cbn [g_base] in *. pose proof Ht as Ht'. rewrite Hw in Ht'. unfold two64 in Ht'. apply lor_lt_iff in Ht'.
      split; [reflexivity|]. split; [exact Ht'|]. split; [assumption|].
      intros psi x. unfold gate_sem, pauli_act. cbn [g_base]. rewrite Hw. unfold apply_mat. destruct (ctrl_ok _ x) eqn:Eo; [|reflexivity]. cbn [ctrl_ok forallb].
      apply Csum_ext. intros j Hj. cbn [get_matrix m_at]. f_equal. apply pauli_get_matrix_textbook; try (rewrite <- Hw; assumption); rewrite <- bits_length; [apply gather_lt|assumption].
  Qed.
  Hypothesis F1 : gate_fits n (snd g1).
  Hypothesis F2 : gate_fits n (snd g2).
  Lemma seen_not_I g e : seen_type g <> Some EI -> seen_type g = Some e -> e <> EI.
  Proof. intros H1 H2 ->. contradiction. Qed.
  Lemma fits_64 g : gate_fits n g -> popcount (g_t (g_base g)) < 64.
  Proof. intros [H _]. pose proof (popcount_le _ _ H). lia. Qed.
  Lemma paulis_good : good_case (merge_paulis vf g1 g2).
  Proof.
    intros r H. unfold merge_paulis in H.
    destruct (pauli_view (seen_type g1) (hd 0 (gate_target_list (snd g1)))) as [rp1|] eqn:P1; [|discriminate].
    destruct (pauli_view (seen_type g2) (hd 0 (gate_target_list (snd g2)))) as [rp2|] eqn:P2; [|discriminate].
    assert (V1 : seen_type g1 = Some (snd g1)). { destruct g1 as [[] e]; [reflexivity|discriminate P1]. }
    assert (V2 : seen_type g2 = Some (snd g2)). { destruct g2 as [[] e]; [reflexivity|discriminate P2]. }
    destruct (pauli_view_ok _ _ _ V1 (seen_not_I _ _ NI1 V1) W1 (fits_64 _ F1) (fun _ _ _ => eq_refl) _ P1) as (p1 & -> & U1 & T1 & S1).
    destruct (pauli_view_ok _ _ _ V2 (seen_not_I _ _ NI2 V2) W2 (fits_64 _ F2) (fun _ _ _ => eq_refl) _ P2) as (p2 & -> & U2 & T2 & S2).
    cbn [bindR] in H. injection H as <-.
    pose proof W1 as [(D1 & _ & _ & Hc) _]. pose proof W2 as [(D2 & _ & _ & _) _]. rewrite <- Ec in D2.
    set (c := g_c (g_base (snd g1))) in *. set (cv := g_cv (g_base (snd g1))) in *. set (p := pauli_mul p2 p1).
    assert (Up : pauli_u64 p) by now apply pauli_mul_u64.
    assert (Hsub : forall q, N.testbit (N.lor (p_bf p) (p_pf p)) q = true -> N.testbit (g_t (g_base (snd g1))) q = true \/ N.testbit (g_t (g_base (snd g2))) q = true).
    { intros q. unfold p, pauli_mul. cbn [p_bf p_pf]. rewrite T1, T2, !N.lor_spec, !N.lxor_spec.
      destruct (N.testbit (p_bf p1) q), (N.testbit (p_pf p1) q), (N.testbit (p_bf p2) q), (N.testbit (p_pf p2) q); simpl; auto. }
    assert (Hdisj : forall q, N.testbit (N.lor (p_bf p) (p_pf p)) q = true -> N.testbit c q = false).
    { intros q Hq. destruct (Hsub q Hq) as [H|H]; [exact (land0_tb _ _ q D1 H)|exact (land0_tb _ _ q D2 H)]. }
    assert (H64 : N.lor (p_bf p) (p_pf p) < two64). { destruct Up. unfold two64 in *. apply lor_lt_iff. auto. }
    set (call := CallPauli p (mask_to_vector c) (mask_to_values c cv)).
    assert (Hv : call_valid call). { apply valid_mask_controls; [assumption|apply bits_NoDup|apply bits_lt; exact H64|]. intros q Hq. apply in_bits in Hq. auto. }
    destruct (make_complete vf call Up Hv) as [g Hg]. pose proof (make_means vf call g Up Hg) as Hm.
    unfold returning, gate_control_list, gate_control_values. fold c cv. fold call. rewrite Hg. cbn [bindR]. apply good_exact; [apply (made_call vf call); assumption|]. cbn [snd].
    unfold call in Hm. cbn [call_targets call_controls call_matrix] in Hm. rewrite with_values_ctrls in Hm by assumption. split; [apply Hm|].
    assert (Hsubn : forall n', gate_fits n' (snd g1) -> gate_fits n' (snd g2) -> N.lor (p_bf p) (p_pf p) < 2 ^ n').
    { intros n' [A1 _] [A2 _]. apply lt_pow2_testbit. intros q Hq. apply not_true_is_false. intros E. apply Hsub in E.
      destruct E as [E|E]; [rewrite (testbit_high _ n' q A1 Hq) in E|rewrite (testbit_high _ n' q A2 Hq) in E]; discriminate. }
    split.
    - intros n' A1 A2. apply (means_fits n' _ _ _ _ Hm). apply Forall_app. split; [apply bits_lt; auto|]. rewrite map_fst_ctrls. apply bits_lt. apply A1.
    - intros psi x. rewrite Cexpi_0. fold c cv. rewrite (means_sem _ _ _ _ Hm).
      2:{ rewrite bits_length. pose proof (popcount_le _ _ (Hsubn n F1 F2)). lia. }
      rewrite S2, <- Ec, <- Ev. fold c cv.
      transitivity (apply_mat (bits (N.lor (p_bf p) (p_pf p))) (ctrls c cv) (fun i j => (p_coef p * tensor (map (pauli_id_of (p_bf p) (p_pf p)) (bits (N.lor (p_bf p) (p_pf p)))) i j)%C) psi x).
      2:{ destruct (ctrl_ok (ctrls c cv) x); unfold pauli_textbook; ring. }
      unfold apply_mat at 1. destruct (ctrl_ok (ctrls c cv) x) eqn:Eo; [|rewrite S1; fold c cv; now rewrite Eo].
      transitivity (pauli_act p psi x); [|unfold pauli_act, apply_mat; reflexivity]. unfold p. rewrite pauli_mul_act by assumption.
      rewrite !(pauli_act_eq p2). f_equal. rewrite S1. fold c cv.
      assert (Eo' : ctrl_ok (ctrls c cv) (N.lxor x (p_bf p2)) = true).
      { rewrite ctrl_ok_ctrls_iff in *. intros q Hq. rewrite N.lxor_spec, Eo by assumption.
        assert (Eb : N.testbit (p_bf p2) q = false). { apply not_true_is_false. intros E. assert (N.testbit (g_t (g_base (snd g2))) q = true) by (rewrite T2, N.lor_spec, E; reflexivity).
          rewrite (land0_tb _ _ q D2 H) in Hq. discriminate. }
        rewrite Eb. now destruct (N.testbit cv q). }
      now rewrite Eo'.
  Qed.

  (** ** Tables of phases and square roots *)
  Lemma table_good f tbl m (F : N -> matrix) : 0 < m ->
    (forall v o, f v = Some o -> v = Some EI \/ exists k b, v = Some (EStd k b)) ->
    (forall k b o, f (Some (EStd k b)) = Some o -> o < m /\ mat_eq 2 (std1_textbook k) (F o)) ->
    (forall o k, o < m -> tbl o = Some k -> match k with None => o = 0 | Some k => forall b, f (Some (EStd k b)) = Some o end) ->
    mat_eq 2 (F 0) mat_id -> (forall a b, mat_eq 2 (mat_mul 2 (F b) (F a)) (F (a + b))) ->
    (forall a b, a < m -> b < m -> mat_eq 2 (F (a + b)) (F ((a + b) mod m))) ->
    good_case (merge_table vf g1 g2 f tbl m).
  Proof.
    intros Hm Hf HF Htbl H0 Hmul Hmod r H. unfold merge_table in H.
    destruct (f (seen_type g1)) as [a|] eqn:A1; [|discriminate]. destruct (f (seen_type g2)) as [b|] eqn:A2; [|discriminate].
    destruct (N.eqb_spec (hd 0 (gate_target_list (snd g1))) (hd 0 (gate_target_list (snd g2)))) as [Ht|]; [|discriminate].
    destruct (tbl ((a + b) mod m)) as [k|] eqn:Et; [|discriminate]. injection H as <-.
    destruct (Hf _ _ A1) as [V1|(k1 & b1 & V1)]; [now elim NI1|]. destruct (Hf _ _ A2) as [V2|(k2 & b2 & V2)]; [now elim NI2|].
    rewrite V1 in A1. rewrite V2 in A2. apply HF in A1, A2. destruct A1 as [La Ma], A2 as [Lb Mb].
    assert (HM : mat_eq 2 (mat_mul 2 (std1_textbook k2) (std1_textbook k1)) (F ((a + b) mod m))).
    { eapply mat_eq_trans; [apply mat_mul_ext; eassumption|]. eapply mat_eq_trans; [apply Hmul|]. now apply Hmod. }
    assert (Ll : (a + b) mod m < m) by (apply N.mod_lt; lia). apply Htbl in Et; [|assumption]. destruct k as [k|].
    - apply good_1 with (k1 := k1) (b1 := b1) (k2 := k2) (b2 := b2) (delta := 0%R); try assumption; [|now right|rewrite Rabs_R0; apply eps_pos|reflexivity].
      specialize (Et b1). apply HF in Et. destruct Et as [_ Et]. rewrite Rplus_0_r, Cexpi_0. intros i j Hi Hj. rewrite HM, <- Et by assumption. ring.
    - rewrite Et in HM. apply good_1_id with (k1 := k1) (b1 := b1) (k2 := k2) (b2 := b2); try assumption. eapply mat_eq_trans; eassumption.
  Qed.
  Lemma oct_good : good_case (merge_table vf g1 g2 get_oct_phase oct_phase_gate 8).
  Proof.
    apply table_good with oct; auto using oct_0, oct_mul, oct_mod; [lia| |intros; eapply oct_std; eassumption|intros; now apply oct_gate].
    intros [[]|] o H; try discriminate; [now left|right; eauto].
  Qed.
  Lemma quad_x_good : good_case (merge_table vf g1 g2 get_quad_rx quad_rx_gate 4).
  Proof.
    apply table_good with (quad (pauli1 1)); auto using quad_0, quad_mod; [lia| |intros; eapply quad_std_x; eassumption|intros; now apply quad_gate_x|intros; apply quad_mul, PP1].
    intros [[]|] o H; try discriminate; [now left|right; eauto].
  Qed.
  Lemma quad_y_good : good_case (merge_table vf g1 g2 get_quad_ry quad_ry_gate 4).
  Proof.
    apply table_good with (quad (pauli1 2)); auto using quad_0, quad_mod; [lia| |intros; eapply quad_std_y; eassumption|intros; now apply quad_gate_y|intros; apply quad_mul, PP2].
    intros [[]|] o H; try discriminate; [now left|right; eauto].
  Qed.

  (** ** Rotations *)
  Lemma rotations_good view K (F : R -> R -> matrix) (ok : std1 -> R -> Prop) :
    (forall v a p, view v = Some (a, p) -> v = Some EI \/ exists k b, v = Some (EStd k b)) ->
    (forall k b a p, view (Some (EStd k b)) = Some (a, p) -> ok k p /\ mat_eq 2 (std1_textbook k) (F p a)) ->
    (forall p1 a1 p2 a2, mat_eq 2 (mat_mul 2 (F p2 a2) (F p1 a1)) (F (p1 + p2) (a1 + a2))%R) ->
    (forall p a, mat_eq 2 (F p a) (fun i j => (Cexpi p * std1_textbook (K a) i j)%C)) ->
    (forall k1 p1 k2 p2, ok k1 p1 -> ok k2 p2 -> (forall a, k1 <> GRZ a) -> (forall a, k2 <> GRZ a) -> (p1 + p2 - snap (p1 + p2) = 0)%R) ->
    good_case (merge_rotations vf g1 g2 view K).
  Proof.
    intros Hf HF Hmul HK Hok r H. unfold merge_rotations in H.
    destruct (view (seen_type g1)) as [[a1 p1]|] eqn:A1; [|discriminate]. destruct (view (seen_type g2)) as [[a2 p2]|] eqn:A2; [|discriminate].
    destruct (N.eqb_spec (hd 0 (gate_target_list (snd g1))) (hd 0 (gate_target_list (snd g2)))) as [Ht|]; [|discriminate]. cbv zeta in H.
    destruct ((g_c (g_base (snd g1)) =? 0) || is_zero (snap (p1 + p2))) eqn:Ez; [|discriminate]. injection H as <-.
    destruct (Hf _ _ _ A1) as [V1|(k1 & b1 & V1)]; [now elim NI1|]. destruct (Hf _ _ _ A2) as [V2|(k2 & b2 & V2)]; [now elim NI2|].
    rewrite V1 in A1. rewrite V2 in A2. apply HF in A1, A2. destruct A1 as [O1 M1], A2 as [O2 M2].
    apply good_1 with (k1 := k1) (b1 := b1) (k2 := k2) (b2 := b2) (delta := (p1 + p2 - snap (p1 + p2))%R); try assumption.
    - replace (snap (p1 + p2) + (p1 + p2 - snap (p1 + p2)))%R with (p1 + p2)%R by lra.
      eapply mat_eq_trans; [apply mat_mul_ext; eassumption|]. eapply mat_eq_trans; [apply Hmul|]. apply HK.
    - apply orb_true_iff in Ez. destruct Ez as [Ez|Ez]; [left; now apply N.eqb_eq|right]. unfold is_zero in Ez. destruct (Req_EM_T (snap (p1 + p2)) 0); [assumption|discriminate].
    - apply snap_bound.
    - intros R1 R2. apply (Hok k1 p1 k2 p2 O1 O2); intros a ->.
      + apply seen_snd in V1. unfold is_rz in R1. rewrite V1 in R1. discriminate.
      + apply seen_snd in V2. unfold is_rz in R2. rewrite V2 in R2. discriminate.
  Qed.
  Lemma rz_good : good_case (merge_rotations vf g1 g2 rz_view GU1).
  Proof.
    apply rotations_good with diag (fun k p => (forall a, k <> GRZ a) -> p = 0%R).
    - intros [[]|] ? ? H; try discriminate; [now left|right; eauto].
    - intros k b a p H. split; [|now apply (rz_std k b)]. intros Hk. destruct k; try discriminate H; cbn in H; try (now injection H); now elim (Hk angle).
    - intros. apply diag_mul.
    - intros p a i j _ _. reflexivity.
    - intros k1 p1 k2 p2 O1 O2 N1 N2. rewrite (O1 N1), (O2 N2), Rplus_0_l, snap_0. lra.
  Qed.
  Lemma rx_good : good_case (merge_rotations vf g1 g2 rx_view GRX).
  Proof.
    apply rotations_good with (rot (pauli1 1)) (fun _ p => coarse p).
    - intros [[]|] ? ? H; try discriminate; [now left|right; eauto].
    - intros k b a p H. now apply (rx_std k b).
    - intros. apply rot_mul, PP1.
    - intros p a i j _ _. reflexivity.
    - intros. now apply snap_coarse.
  Qed.
  Lemma ry_good : good_case (merge_rotations vf g1 g2 ry_view GRY).
  Proof.
    apply rotations_good with (rot (pauli1 2)) (fun _ p => coarse p).
    - intros [[]|] ? ? H; try discriminate; [now left|right; eauto].
    - intros k b a p H. now apply (ry_std k b).
    - intros. apply rot_mul, PP2.
    - intros p a i j _ _. reflexivity.
    - intros. now apply snap_coarse.
  Qed.
  Lemma swaps_good : good_case (merge_swaps vf g1 g2).
  Proof.
    intros r H. unfold merge_swaps in H. destruct (seen_type g1) as [[]|] eqn:V1; try discriminate. destruct (seen_type g2) as [[]|] eqn:V2; try discriminate.
    destruct (N.eqb_spec (g_t b) (g_t b0)) as [Et|]; [|discriminate]. injection H as <-. apply seen_snd in V1, V2.
    assert (Eb : b = b0). { rewrite V1, V2 in Ec, Ev. cbn [g_base] in Ec, Ev. destruct b, b0. cbn in *. congruence. }
    apply good_I. intros psi x. rewrite V2, V1, <- Eb. rewrite V1 in W1, F1. exact (proj1 (gate_sem_inverse n (ESwap b) (ESwap b) psi x Hn W1 F1 eq_refl I)).
  Qed.
End Cases.
