(** merge_gate_dense_matrix is composition. *)
From Verif Require Export MergeProofs2 OperatorProofs.
From Coq Require Import ZifyBool ZifyN ZifyNat.

(** The expanded matrix acts like the original one. *)
Theorem expanded_acts from ts c cv ops : incr ops -> (length ops < 64)%nat -> NoDup ts -> incl ts ops -> c < two64 -> incl (bits c) ops ->
  (forall q, In q ts -> N.testbit c q = false) -> N.land cv c = cv ->
  m_rows from = 2 ^ N.of_nat (length ts) -> m_cols from = 2 ^ N.of_nat (length ts) ->
  exists E, get_expanded_matrix from ts c cv ops = Ok E /\
    m_rows E = 2 ^ N.of_nat (length ops) /\ m_cols E = 2 ^ N.of_nat (length ops) /\
    forall psi x, apply_mat ops [] (m_at E) psi x = apply_mat ts (ctrls c cv) (m_at from) psi x.
Proof.
  intros Hops Hl Hts Hsub Hc Hcs Hd Hcv Hr Hc'. destruct (expanded_correct (m_at from) ts c cv ops) as (E & HE & H1 & H2 & H3); try assumption.
  exists E. destruct from as [r k M]. cbn [m_rows m_cols m_at] in *. subst r k. split; [exact HE|]. split; [assumption|]. split; [assumption|].
  intros psi x. rewrite (apply_mat_ext_mat ops [] _ _ psi H3). apply apply_embed; try assumption.
  intros p Hp. unfold ctrls in Hp. apply in_map_iff in Hp. destruct Hp as (q & <- & Hq). cbn [fst]. auto.
Qed.

Lemma ctrl_ok_ctrls_iff c cv x : ctrl_ok (ctrls c cv) x = true <-> forall q, N.testbit c q = true -> N.testbit x q = N.testbit cv q.
Proof.
  unfold ctrl_ok, ctrls. rewrite forallb_forall. split.
  - intros H q Hq. specialize (H (q, N.testbit cv q)). cbn [fst snd] in H. apply eqb_true_iff, H. apply in_map_iff. exists q. split; [reflexivity|]. now apply in_bits.
  - intros H p Hp. apply in_map_iff in Hp. destruct Hp as (q & <- & Hq). cbn [fst snd]. apply eqb_true_iff. apply H. now apply in_bits.
Qed.
Lemma ctrl_split c cv m x : m < two64 -> c < two64 -> cv < two64 -> N.land m c = m ->
  ctrl_ok (ctrls c cv) x = ctrl_ok (ctrls m (N.land m cv)) x && ctrl_ok (ctrls (N.land c (not64 m)) (N.land cv (not64 m))) x.
Proof.
  intros Hm Hc Hv Hs. apply eq_iff_eq_true. rewrite andb_true_iff, !ctrl_ok_ctrls_iff. rewrite !land_not64 by assumption.
  assert (Hsub : forall q, N.testbit m q = true -> N.testbit c q = true).
  { intros q Hq. rewrite <- Hs, N.land_spec in Hq. now apply andb_true_iff in Hq. }
  split.
  - intros H. split; intros q Hq.
    + rewrite N.land_spec, Hq. apply H. auto.
    + rewrite N.ldiff_spec in Hq. apply andb_true_iff in Hq. destruct Hq as [H1 H2]. rewrite H by assumption. rewrite N.ldiff_spec, H2. now rewrite andb_true_r.
  - intros [HA HB] q Hq. destruct (N.testbit m q) eqn:Em.
    + rewrite (HA q Em), N.land_spec, Em. reflexivity.
    + rewrite (HB q); [|rewrite N.ldiff_spec, Hq, Em; reflexivity]. rewrite N.ldiff_spec, Em. now rewrite andb_true_r.
Qed.

(** Gate g (with a phase) does what g1 followed by g2 does. *)
Definition merges (g1 g2 g : egate) (phase delta : R) : Prop :=
  gate_wf g /\
  (forall n, gate_fits n g1 -> gate_fits n g2 -> gate_fits n g) /\
  forall psi x, gate_sem g2 (gate_sem g1 psi) x =
    (Cexpi phase * (if ctrl_ok (ctrls (g_c (g_base g1)) (g_cv (g_base g1))) x then Cexpi delta else C1) * gate_sem g psi x)%C.

Lemma land_lt_l a b n : a < 2 ^ n -> N.land a b < 2 ^ n.
Proof. intros H. eapply N.le_lt_trans; [apply land_le_l|assumption]. Qed.
Lemma incl_bits a b : (forall q, N.testbit a q = true -> N.testbit b q = true) -> incl (bits a) (bits b).
Proof. intros H q Hq. apply in_bits. apply H. now apply in_bits. Qed.
Lemma with_values_ctrls c cv : c < two64 -> with_values (mask_to_vector c) (mask_to_values c cv) = ctrls c cv.
Proof.
  intros Hc. rewrite mask_to_vector_bits, mask_to_values_bits by assumption. unfold with_values. rewrite ctrls_combine.
  destruct (bits c) as [|q l] eqn:E; [reflexivity|]. cbn [map]. f_equal. f_equal; [now destruct (N.testbit cv q)|].
  rewrite map_map. apply map_ext. intros q'. now destruct (N.testbit cv q').
Qed.
Lemma valid_mask_controls ts c cv : c < two64 -> NoDup ts -> Forall (fun q => q < 64) ts -> (forall q, In q ts -> N.testbit c q = false) ->
  valid_controls ts (mask_to_vector c) (mask_to_values c cv).
Proof.
  intros Hc Hnd HF Hd. rewrite mask_to_vector_bits, mask_to_values_bits by assumption. unfold valid_controls. repeat split.
  - apply NoDup_app_intro; [assumption|apply bits_NoDup|]. intros q Hq Hb. apply in_bits in Hb. rewrite Hd in Hb; [discriminate|assumption].
  - apply Forall_app. split; [assumption|]. apply bits_lt. exact Hc.
  - right. now rewrite map_length.
  - apply Forall_forall. intros v Hv. apply in_map_iff in Hv. destruct Hv as (q & <- & _). destruct (N.testbit cv q); auto.
Qed.
Section Dense.
  Variables (vf : bool) (g1 g2 : egate) (n : N).
  Hypothesis Hn : n < 64.
  Hypothesis W1 : gate_wf g1.
  Hypothesis W2 : gate_wf g2.
  Hypothesis F1 : gate_fits n g1.
  Hypothesis F2 : gate_fits n g2.
  Let b1 := g_base g1.
  Let b2 := g_base g2.
  Let common := N.land (N.land (g_c b1) (g_c b2)) (not64 (N.lxor (g_cv b1) (g_cv b2))).
  Let common_v := N.land common (g_cv b1).
  Let merged := N.land (N.lor (N.lor (g_t b1) (g_c b1)) (N.lor (g_t b2) (g_c b2))) (not64 common).
  Let ops := bits merged.

  Lemma n_64 x : x < 2 ^ n -> x < two64.
  Proof. intros H. unfold two64. eapply N.lt_le_trans; [exact H|]. apply N.pow_le_mono_r; lia. Qed.
  Lemma common_lt : common < 2 ^ n.
  Proof. unfold common. apply land_lt_l, land_lt_l. apply F1. Qed.
  Lemma merged_lt : merged < 2 ^ n.
  Proof. unfold merged. apply land_lt_l. apply lor_lt_iff. split; apply lor_lt_iff; [exact F1|exact F2]. Qed.
  Lemma common_tb q : N.testbit common q = true <-> N.testbit (g_c b1) q = true /\ N.testbit (g_c b2) q = true /\ N.testbit (g_cv b1) q = N.testbit (g_cv b2) q.
  Proof.
    unfold common. rewrite land_not64 by (apply n_64, land_lt_l, F1). rewrite N.ldiff_spec, N.land_spec, N.lxor_spec, !andb_true_iff.
    destruct (N.testbit (g_cv b1) q), (N.testbit (g_cv b2) q); simpl; intuition congruence.
  Qed.
  Lemma merged_tb q : N.testbit merged q = true <->
    (N.testbit (g_t b1) q = true \/ N.testbit (g_c b1) q = true \/ N.testbit (g_t b2) q = true \/ N.testbit (g_c b2) q = true) /\ N.testbit common q = false.
  Proof.
    unfold merged. rewrite land_not64.
    - rewrite N.ldiff_spec, !N.lor_spec, andb_true_iff, negb_true_iff, !orb_true_iff. tauto.
    - unfold two64. apply lor_lt_iff. split; apply lor_lt_iff; split; apply n_64; apply F1 || apply F2.
  Qed.
  Lemma common_v_2 : common_v = N.land common (g_cv b2).
  Proof.
    unfold common_v. apply N.bits_inj. intros q. rewrite !N.land_spec. destruct (N.testbit common q) eqn:E; [|reflexivity]. apply common_tb in E.
    destruct E as (_ & _ & E). now rewrite E.
  Qed.
  Lemma ops_len : (length ops < 64)%nat.
  Proof. pose proof (popcount_le _ _ merged_lt) as H. rewrite <- bits_length in H. fold ops in H. lia. Qed.

  (** One of the two gates on the merged operands. *)
  Lemma side g : gate_wf g -> gate_fits n g -> N.land common (g_c (g_base g)) = common -> common_v = N.land common (g_cv (g_base g)) ->
    (forall q, N.testbit (g_t (g_base g)) q = true \/ N.testbit (g_c (g_base g)) q = true -> N.testbit common q = false -> N.testbit merged q = true) ->
    (forall q, N.testbit (g_t (g_base g)) q = true -> N.testbit common q = false) ->
    exists E, get_expanded_matrix (get_matrix g) (gate_target_list g) (N.land (g_c (g_base g)) (not64 common)) (N.land (g_cv (g_base g)) (not64 common)) ops = Ok E /\
      m_rows E = 2 ^ N.of_nat (length ops) /\ m_cols E = 2 ^ N.of_nat (length ops) /\
      forall psi x, apply_mat ops (ctrls common common_v) (m_at E) psi x = gate_sem g psi x.
  Proof.
    intros W F Hsub Hv Hin Htd. pose proof W as [(Hd & Hcv & Ht & Hc) _]. destruct (gate_lists g W) as [Hl _]. rewrite Hl.
    destruct (matrix_size n g Hn W F) as [Hr Hcol]. rewrite <- bits_length in Hr, Hcol.
    assert (H64 : common < two64) by apply n_64, common_lt.
    destruct (expanded_acts (get_matrix g) (bits (g_t (g_base g))) (N.land (g_c (g_base g)) (not64 common)) (N.land (g_cv (g_base g)) (not64 common)) ops)
      as (E & HE & H1 & H2 & H3); try assumption.
    - apply bits_incr.
    - apply ops_len.
    - apply bits_NoDup.
    - apply incl_bits. intros q Hq. apply Hin; [now left|]. auto.
    - now apply land_lt_l.
    - apply incl_bits. intros q Hq. rewrite land_not64, N.ldiff_spec, andb_true_iff, negb_true_iff in Hq by assumption. apply Hin; [now right|]. apply Hq.
    - intros q Hq. apply in_bits in Hq. rewrite N.land_spec. rewrite (land0_tb _ _ q Hd Hq). reflexivity.
    - apply N.bits_inj. intros q. rewrite !N.land_spec. destruct (N.testbit (g_cv (g_base g)) q) eqn:Eq; [|reflexivity].
      assert (E2 : N.testbit (g_c (g_base g)) q = true). { rewrite <- Hcv, N.land_spec in Eq. apply andb_true_iff in Eq. apply Eq. }
      rewrite E2. destruct (N.testbit (not64 common) q); reflexivity.
    - exists E. split; [exact HE|]. split; [assumption|]. split; [assumption|]. intros psi x. specialize (H3 psi x). unfold gate_sem.
      unfold apply_mat at 1. unfold apply_mat at 1 in H3. cbn [ctrl_ok forallb] in H3. unfold apply_mat in *.
      rewrite (ctrl_split _ _ common x H64 Hc) by (assumption || (rewrite <- Hcv; eapply N.le_lt_trans; [rewrite N.land_comm; apply land_le_l|exact Hc])). rewrite <- Hv. destruct (ctrl_ok (ctrls common common_v) x); [|reflexivity]. exact H3.
  Qed.
  Lemma dense_merges : exists g, merge_gate_dense_matrix vf g1 g2 = Ok ((true, g), 0%R) /\ merges g1 g2 g 0 0 /\
    exists k, call_typed k /\ make vf k = Ok g.
  Proof.
    pose proof W1 as [(Hd1 & Hcv1 & Ht1 & Hc1) _]. pose proof W2 as [(Hd2 & Hcv2 & Ht2 & Hc2) _]. fold b1 in Hd1, Hcv1, Ht1, Hc1. fold b2 in Hd2, Hcv2, Ht2, Hc2.
    assert (H64 : common < two64) by apply n_64, common_lt.
    destruct (side g1 W1 F1) as (E1 & HE1 & R1 & C1' & S1).
    { apply N.bits_inj. intros q. rewrite N.land_spec. destruct (N.testbit common q) eqn:E; [|reflexivity]. apply common_tb in E. apply E. }
    { reflexivity. }
    { intros q Hq Hc. apply merged_tb. split; [|assumption]. fold b1 in Hq. tauto. }
    { intros q Hq. destruct (N.testbit common q) eqn:E; [|reflexivity]. apply common_tb in E. destruct E as [E _]. rewrite (land0_tb _ _ q Hd1 Hq) in E. discriminate. }
    destruct (side g2 W2 F2) as (E2 & HE2 & R2 & C2' & S2).
    { apply N.bits_inj. intros q. rewrite N.land_spec. destruct (N.testbit common q) eqn:E; [|reflexivity]. apply common_tb in E. apply E. }
    { apply common_v_2. }
    { intros q Hq Hc. apply merged_tb. split; [|assumption]. fold b2 in Hq. tauto. }
    { intros q Hq. destruct (N.testbit common q) eqn:E; [|reflexivity]. apply common_tb in E. destruct E as (_ & E & _). rewrite (land0_tb _ _ q Hd2 Hq) in E. discriminate. }
    set (M := DMat (m_rows E2) (m_cols E1) (mat_mul (m_cols E2) (m_at E2) (m_at E1))).
    set (k := CallDense ops M (mask_to_vector common) (mask_to_values common common_v) false).
    assert (Hval : call_valid k).
    { cbn [k call_valid]. split; [|split; [apply ops_len|split; [exact R2|exact C1']]]. apply valid_mask_controls; [assumption|apply bits_NoDup| |].
      - apply bits_lt. apply n_64. apply merged_lt.
      - intros q Hq. apply in_bits, merged_tb in Hq. apply Hq. }
    destruct (make_complete vf k I Hval) as [g Hg]. exists g.
    assert (Hty : call_typed k) by exact I. pose proof (make_means vf k g Hty Hg) as Hm.
    split; [|split; [|exists k; auto]].
    - fold b1 in HE1. fold b2 in HE2. unfold merge_gate_dense_matrix. cbv zeta. fold b1 b2. fold common. fold common_v. fold merged. rewrite (mask_to_vector_bits merged) by (apply n_64, merged_lt). fold ops.
      rewrite HE1. cbn [bindR]. rewrite HE2. cbn [bindR]. fold M. fold k. rewrite Hg. reflexivity.
    - split; [apply Hm|]. split.
      + intros n' [A1 A2] [A3 A4]. fold b1 in A1, A2. fold b2 in A3, A4.
        assert (Hmn : merged < 2 ^ n') by (unfold merged; apply land_lt_l; rewrite !lor_lt_iff; tauto).
        assert (Hcn : common < 2 ^ n') by (unfold common; now apply land_lt_l, land_lt_l).
        apply (means_fits n' _ _ _ _ Hm). unfold k. cbn [call_targets call_controls]. rewrite with_values_ctrls, map_fst_ctrls by assumption.
        apply Forall_app. split; now apply bits_lt.
      + intros psi x. rewrite Cexpi_0. rewrite (means_sem _ _ _ _ Hm) by (unfold k; cbn [call_targets]; pose proof ops_len; lia). unfold k. cbn [call_targets call_controls call_matrix m_at M].
        rewrite with_values_ctrls by assumption.
        transitivity (apply_mat ops (ctrls common common_v) (m_at E2) (apply_mat ops (ctrls common common_v) (m_at E1) psi) x).
        * rewrite <- S2. apply apply_mat_ext. intros y. symmetry. apply S1.
        * rewrite (apply_mat_mul n).
          -- rewrite C2'. destruct (ctrl_ok _ x); ring.
          -- unfold ops. apply wf_ops_masks; [apply merged_lt|apply common_lt|]. apply N.bits_inj. intros q. rewrite N.land_spec, N.bits_0.
             destruct (N.testbit merged q) eqn:E; [|reflexivity]. apply merged_tb in E. destruct E as [_ ->]. reflexivity.
  Qed.
End Dense.
