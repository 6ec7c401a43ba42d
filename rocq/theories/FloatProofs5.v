(** Gates in rounded arithmetic. *)
From Verif Require Export FloatProofs4 GatesProofs9.
From Coq Require Import Lra ZifyBool ZifyN ZifyNat.
Open Scope R_scope.

Definition f_covered (A : arith) (g : egate) : Prop :=
  match g with
  | EStd k _ => angles_in A k
  | EDense b M _ => (popcount (g_t b) <= 2)%N /\ forall i j, (i < m_rows M)%N -> (j < m_cols M)%N -> Cnorm2 (m_at M i j) <= 1
  | EPauli _ _ | EPauliRotation _ _ _ | ESparse _ _ => False
  | _ => True
  end.

Section Gates.
  Variables (u eta : R) (A : arith) (n B L : N).
  Hypothesis HA : accurate u eta A.
  Hypothesis Hn : (n < 64)%N.
  Hypothesis HB : (B * 2 ^ n <= two64)%N.
  Hypothesis HL : L = 0%N \/ exists l, (l < 64)%N /\ L = (2 ^ l)%N.
  Let D := (B * 2 ^ n)%N.
  Let Hu := u_range u eta A HA.
  Let He := eta_range u eta A HA.
  Notation near := (near_entry u).

  Lemma std1_close k q c cv psi : (q < n)%N -> (c < 2 ^ n)%N -> N.testbit c q = false -> N.land cv c = cv -> angles_in A k ->
    closely u eta n B [0%N; (2 ^ q)%N] (f_std1_kernel A n D L k (2 ^ q) c cv) psi (apply_mat [q] (ctrls c cv) (std1_used k) psi).
  Proof.
    intros Hq Hc Hd Hcv Hk. assert (Hn' : (n <= 64)%N) by lia.
    assert (Hph : forall ph ph', near ph' ph -> closely u eta n B [0%N; (2 ^ q)%N] (f_phase_gate A D (2 ^ q) c cv ph') psi (apply_mat [q] (ctrls c cv) (mat2 C1 C0 C0 ph) psi))
      by (intros; apply f_phase_close; assumption).
    assert (Hde : forall M M', (forall i j, near (M' i j) (M i j)) ->
      closely u eta n B [0%N; (2 ^ q)%N] (f_one_gate A n D L (2 ^ q) c cv M') psi (apply_mat [q] (ctrls c cv) M psi))
      by (intros M M' H; apply f_one_close; auto).
    assert (Hsame : forall z, Cmod z <= 1 -> near z z) by (intros; apply (same_near u eta A HA); assumption).
    assert (H0 : near C0 C0) by (apply Hsame; rewrite Cmod_0; lra).
    assert (H1 : near C1 C1) by (apply Hsame; rewrite Cmod_1; lra).
    assert (Hi : near Ci Ci) by (apply Hsame; rewrite Cmod_i; lra).
    assert (Hhalf : forall a b, a = 1 \/ a = -1 -> b = 1 \/ b = -1 -> near (half a b) (half a b)).
    { intros a b Ha Hb. apply Hsame, Cmod_one. unfold Cnorm2, half. cbn. destruct Ha as [-> | ->], Hb as [-> | ->]; lra. }
    assert (Hm : forall a b c d a' b' c' d', near a' a -> near b' b -> near c' c -> near d' d -> forall i j, near (mat2 a' b' c' d' i j) (mat2 a b c d i j)).
    { intros a b x d a' b' x' d' Ha Hb Hx Hd' i j. unfold mat2. destruct i, j; assumption. }
    pose proof (isq2_near u eta A HA) as Hs. pose proof isq2_abs as Hs1.
    assert (Hrs : near (RtoC (a_isq2 A)) (RtoC INVERSE_SQRT2)) by (eapply (real_entry u); [exact Hs|lra|exact Hs1]).
    assert (Hss : INVERSE_SQRT2 * INVERSE_SQRT2 = / 2).
    { rewrite <- inv_sqrt2. rewrite <- Rinv_mult, sqrt_sqrt by lra. reflexivity. }
    destruct k; cbn [f_std1_kernel std1_used]; cbn [angles_in] in Hk.
    - eexists. split; [apply x_computes; assumption|]. intros a Ha. cbv beta. unfold flat_spec.
      replace (a <? B * 2 ^ n)%N with true by (symmetry; now apply N.ltb_lt).
      match goal with |- Cmod ?x <= _ => replace x with C0 by (match goal with |- C0 = (?p - ?q)%C => change q with p end; ring) end.
      rewrite Cmod_0. pose proof (spread_nonneg [0%N; (2 ^ q)%N] psi a). nra.
    - apply f_y_close; assumption.
    - apply Hph. now apply neg_near.
    - apply Hde. intros i j. apply Hm; try assumption. now apply neg_near.
    - now apply Hph.
    - apply Hph. now apply neg_near.
    - apply Hph. apply (unit_entry u _ _ (2 * u)); cbn; try lra; try assumption. unfold Cnorm2; cbn; lra.
    - apply Hph. apply (unit_entry u _ _ (2 * u)); cbn; try lra; [unfold Cnorm2; cbn; lra|].
      replace (- a_isq2 A - - INVERSE_SQRT2) with (- (a_isq2 A - INVERSE_SQRT2)) by ring. now rewrite Rabs_Ropp.
    - apply Hde. apply Hm; apply Hhalf; auto.
    - apply Hde. apply Hm; apply Hhalf; auto.
    - apply Hde. apply Hm; apply Hhalf; auto.
    - apply Hde. apply Hm; apply Hhalf; auto.
    - apply Hde. apply Hm; assumption.
    - apply Hde. apply Hm; assumption.
    - pose proof (half_near u eta A HA _ Hk) as Hh. pose proof (cos_near u eta A HA _ _ _ Hh) as E1. pose proof (sin_near u eta A HA _ _ _ Hh) as E2.
      apply Hde. apply Hm.
      + eapply (real_entry u); [exact E1|lra|apply cos1].
      + eapply (imag_entry u); [exact E2|lra|apply sin1].
      + eapply (imag_entry u); [exact E2|lra|apply sin1].
      + eapply (real_entry u); [exact E1|lra|apply cos1].
    - pose proof (half_near u eta A HA _ Hk) as Hh. pose proof (cos_near u eta A HA _ _ _ Hh) as E1. pose proof (sin_near u eta A HA _ _ _ Hh) as E2.
      apply Hde. apply Hm.
      + eapply (real_entry u); [exact E1|lra|apply cos1].
      + apply (real_entry u _ _ (3 * u)); [|lra|rewrite Rabs_Ropp; apply sin1].
        match goal with |- Rabs (- ?x - - ?y) <= _ => replace (- x - - y) with (- (x - y)) by ring end. rewrite Rabs_Ropp. lra.
      + eapply (real_entry u); [exact E2|lra|apply sin1].
      + eapply (real_entry u); [exact E1|lra|apply cos1].
    - pose proof (half_near u eta A HA _ Hk) as Hh. pose proof (cos_near u eta A HA _ _ _ Hh) as E1. pose proof (sin_near u eta A HA _ _ _ Hh) as E2.
      assert (Hcs : forall x, cos x * cos x + sin x * sin x = 1) by (intros x; apply cos2sin2).
      apply f_diagonal_close; try assumption; apply (unit_entry u _ _ (3 * u)); cbn; try lra;
        try (unfold Cnorm2; cbn; match goal with |- context [cos ?x] => pose proof (Hcs x) end; lra).
      match goal with |- Rabs (- ?x - - ?y) <= _ => replace (- x - - y) with (- (x - y)) by ring end. rewrite Rabs_Ropp. lra.
    - apply Hph. split; [rewrite Cmod_expi; lra|]. pose proof (expi_near u eta A HA lambda). lra.
    - apply Hde. apply (ibmq_near u eta A HA). apply (half_pi2 u eta A HA).
    - apply Hde. apply (ibmq_near u eta A HA). destruct Hk as [Hk _]. pose proof (half_near u eta A HA _ Hk). lra.
  Qed.

  Lemma closely_updates S k psi exact exact' : closely u eta n B S k psi exact -> (forall a, (a < D)%N -> exact' a = exact a) ->
    exists phi, updates_to D (InPlace [k]) psi phi /\ close u eta S D psi phi exact'.
  Proof.
    intros (phi & H1 & H2) E. exists phi. split; [eapply updates_inplace1; [exact H1|auto]|].
    intros a Ha. rewrite E by assumption. now apply H2.
  Qed.
  Lemma exact_updates p psi exact : updates_to D p psi exact -> exists phi, updates_to D p psi phi /\ close u eta [] D psi phi exact.
  Proof.
    intros H. exists exact. split; [exact H|]. intros a Ha. replace (exact a - exact a)%C with C0 by ring. rewrite Cmod_0.
    pose proof (spread_nonneg [] psi a). nra.
  Qed.

  Theorem f_gate_close g psi : gate_wf g -> gate_fits n g -> f_covered A g ->
    exists S p phi, (length S <= 4)%nat /\ Forall (fun s => (s < 2 ^ n)%N) S /\ f_update_plan A n D L g = Ok p /\
      updates_to D p psi phi /\ close u eta S D psi phi (gate_sem g psi).
  Proof.
    intros Hwf0 Hfit0 Hcov. pose proof Hwf0 as [(Hd & Hcv & Ht64 & Hc64) Hwf]. pose proof Hfit0 as [Ht Hc].
    assert (Hw : within_bounds n (g_base g) = true) by (apply within_bounds_iff; auto).
    assert (Hn' : (n <= 64)%N) by lia.
    assert (Hz : (0 < 2 ^ n)%N) by apply pow2_pos.
    assert (Hpw : forall q, (q < n)%N -> (2 ^ q < 2 ^ n)%N) by (intros; apply N.pow_lt_mono_r; lia).
    assert (Same : f_update_plan A n D L g = update_plan n D L g -> exists S p phi, (length S <= 4)%nat /\ Forall (fun s => (s < 2 ^ n)%N) S /\
      f_update_plan A n D L g = Ok p /\ updates_to D p psi phi /\ close u eta S D psi phi (gate_sem g psi)).
    { intros E. destruct (update_correct n B L Hn HB HL g psi Hwf0 Hfit0) as (p & Hp & Hup).
      destruct (exact_updates p psi _ Hup) as (phi & U1 & U2). exists [], p, phi. split; [cbn; lia|]. split; [constructor|].
      split; [rewrite E; exact Hp|]. split; assumption. }
    assert (Go : forall S k exact, closely u eta n B S k psi exact -> (forall a, (a < D)%N -> gate_sem g psi a = exact a) ->
      (length S <= 4)%nat -> Forall (fun s => (s < 2 ^ n)%N) S -> f_update_plan A n D L g = Ok (InPlace [k]) ->
      exists S p phi, (length S <= 4)%nat /\ Forall (fun s => (s < 2 ^ n)%N) S /\
      f_update_plan A n D L g = Ok p /\ updates_to D p psi phi /\ close u eta S D psi phi (gate_sem g psi)).
    { intros S k exact Hcl Hex HS1 HS2 Hp. destruct (closely_updates S k psi exact (gate_sem g psi) Hcl Hex) as (phi & U1 & U2).
      exists S, (InPlace [k]), phi. repeat (split; [assumption|]). assumption. }
    destruct g; cbn [g_base f_covered] in *; try contradiction.
    - now apply Same.
    - (* GlobalPhase *)
      apply (Go [0%N] (f_zero_gate A n D L (g_c b) (g_cv b) (f_polar1 A phase)) (apply_mat [] (ctrls (g_c b) (g_cv b)) (fun _ _ => Cexpi phase) psi)).
      + apply f_zero_close; try assumption. split; [rewrite Cmod_expi; lra|]. pose proof (polar_near u eta A HA phase). lra.
      + intros a Ha. unfold gate_sem. cbn [g_base get_matrix]. rewrite Hwf, bits_0. apply apply_mat_ext_mat. intros i j Hi Hj. simpl in *.
        assert (i = 0%N) by lia. assert (j = 0%N) by lia. subst. unfold mat_id. simpl. ring.
      + cbn; lia.
      + repeat constructor; assumption.
      + unfold f_update_plan. cbn [g_base]. now rewrite Hw.
    - (* one target *)
      destruct Hwf as [q Hq]. apply (Go [0%N; (2 ^ q)%N] (f_std1_kernel A n D L k (2 ^ q) (g_c b) (g_cv b)) (apply_mat [q] (ctrls (g_c b) (g_cv b)) (std1_used k) psi)).
      + rewrite Hq in *. apply pow2_tb_disj in Hd. apply pow2_lt_inv in Ht. apply std1_close; assumption.
      + intros a Ha. unfold gate_sem. cbn [g_base]. rewrite Hq, bits_pow2. symmetry. apply apply_mat_ext_mat. apply std1_used_matrix.
      + cbn; lia.
      + rewrite Hq in Ht. repeat constructor; assumption.
      + unfold f_update_plan. cbn [g_base]. now rewrite Hw, Hq.
    - now apply Same.
    - (* Ecr *)
      destruct Hwf as (p & q & Hpq & Hpp & Hpt & Hq). subst physical_control_mask physical_target_mask. rewrite Hq in Hd, Ht.
      apply lor_lt_iff in Ht. destruct Ht as [Hp2 Hq2]. pose proof Hp2 as Hp2'. pose proof Hq2 as Hq2'. apply pow2_lt_inv in Hp2', Hq2'.
      assert (Hdp : N.testbit (g_c b) p = false).
      { apply (land0_tb _ _ _ Hd). rewrite N.lor_spec, pow2_tb, N.eqb_refl. reflexivity. }
      assert (Hdq : N.testbit (g_c b) q = false).
      { apply (land0_tb _ _ _ Hd). rewrite N.lor_spec, (pow2_tb q q), N.eqb_refl. apply orb_true_r. }
      apply (Go [0%N; (2 ^ p)%N; (2 ^ q)%N; N.lor (2 ^ p) (2 ^ q)] (f_ecr_gate A D (2 ^ q) (2 ^ p) (g_c b) (g_cv b)) (apply_mat [p; q] (ctrls (g_c b) (g_cv b)) ecr_mat psi)).
      + now apply (f_ecr_close u eta A n B L).
      + intros a Ha. unfold gate_sem. cbn [g_base]. rewrite Hq. destruct (N.lt_total p q) as [H|[H|H]]; [|contradiction|].
        * rewrite bits_two by assumption. symmetry. apply apply_mat_ext_mat. now apply ecr_get_matrix.
        * rewrite N.lor_comm, bits_two by assumption.
          rewrite <- (apply_mat_ext_mat [q; p] _ (fun i j => ecr_mat (flip2 i) (flip2 j))) by now apply ecr_get_matrix'.
          apply apply_mat_swap2. lia.
      + cbn; lia.
      + repeat constructor; try assumption. apply lor_u64_pow2; assumption.
      + unfold f_update_plan. cbn [g_base]. now rewrite Hw.
    - now apply Same.
    - (* Dense *)
      destruct Hwf as [Hr Hcl]. destruct Hcov as [Hpop Hent].
      assert (Hnear : forall i j, (i < m_rows M)%N -> (j < m_cols M)%N -> near (f_entry A (m_at M i j)) (m_at M i j)).
      { intros i j Hi Hj. apply (entry_near u eta A HA). apply Cmod_one. now apply Hent. }
      assert (popcount (g_t b) = 0 \/ popcount (g_t b) = 1 \/ popcount (g_t b) = 2)%N as [Hp0|[Hp1|Hp2]] by lia.
      + assert (Hnil : bits (g_t b) = []).
        { apply length_zero_iff_nil. pose proof (bits_length (g_t b)). lia. }
        rewrite Hp0 in Hr, Hcl. change (2 ^ 0)%N with 1%N in Hr, Hcl.
        apply (Go [0%N] (f_zero_gate A n D L (g_c b) (g_cv b) (f_entry A (m_at M 0%N 0%N))) (apply_mat [] (ctrls (g_c b) (g_cv b)) (fun _ _ => m_at M 0%N 0%N) psi)).
        * apply f_zero_close; try assumption. apply Hnear; lia.
        * intros a Ha. unfold gate_sem. cbn [g_base get_matrix]. rewrite Hnil. apply apply_mat_ext_mat. intros i j Hi Hj. simpl in *.
          assert (i = 0%N) by lia. assert (j = 0%N) by lia. now subst.
        * cbn; lia.
        * repeat constructor; assumption.
        * unfold f_update_plan. cbn [g_base]. now rewrite Hw, Hr, Hcl.
      + assert (Hq : exists q, bits (g_t b) = [q]).
        { pose proof (bits_length (g_t b)). destruct (bits (g_t b)) as [|q [|]]; simpl in *; try lia. eauto. }
        destruct Hq as [q Hq].
        assert (Et : g_t b = (2 ^ q)%N).
        { apply N.bits_inj. intros i. apply eq_iff_eq_true. rewrite <- in_bits, Hq, pow2_tb, N.eqb_eq. simpl. intuition. }
        rewrite Hp1 in Hr, Hcl. change (2 ^ 1)%N with 2%N in Hr, Hcl.
        rewrite Et in Hd, Ht. pose proof Ht as Ht'. apply pow2_tb_disj in Hd. apply pow2_lt_inv in Ht.
        apply (Go [0%N; (2 ^ q)%N] (f_one_gate A n D L (2 ^ q) (g_c b) (g_cv b) (fun i j => f_entry A (m_at M i j))) (apply_mat [q] (ctrls (g_c b) (g_cv b)) (m_at M) psi)).
        * apply f_one_close; try assumption. intros i j Hi Hj. apply Hnear; lia.
        * intros a Ha. unfold gate_sem. cbn [g_base get_matrix]. now rewrite Hq.
        * cbn; lia.
        * repeat constructor; assumption.
        * unfold f_update_plan. cbn [g_base]. now rewrite Hw, Hr, Hcl, Et.
      + assert (Hq : exists p q, bits (g_t b) = [p; q] /\ (p < q)%N).
        { pose proof (bits_length (g_t b)). pose proof (bits_incr (g_t b)) as Hi.
          destruct (bits (g_t b)) as [|p [|q [|]]]; simpl in *; try lia. exists p, q. split; [reflexivity|].
          inversion Hi as [|? ? _ Hf]; subst. inversion Hf; assumption. }
        destruct Hq as (p & q & Hq & Hpq).
        assert (Et : g_t b = N.lor (2 ^ p) (2 ^ q)).
        { apply N.bits_inj. intros i. apply eq_iff_eq_true. rewrite <- in_bits, Hq, N.lor_spec, !pow2_tb, orb_true_iff, !N.eqb_eq.
          simpl. intuition. }
        rewrite Hp2 in Hr, Hcl. change (2 ^ 2)%N with 4%N in Hr, Hcl.
        rewrite Et in Hd, Ht. apply lor_lt_iff in Ht. destruct Ht as [Hpl Hql]. pose proof Hpl as Hp2'. pose proof Hql as Hq2'. apply pow2_lt_inv in Hp2', Hq2'.
        assert (Hdp : N.testbit (g_c b) p = false).
        { apply (land0_tb _ _ _ Hd). rewrite N.lor_spec, pow2_tb, N.eqb_refl. reflexivity. }
        assert (Hdq : N.testbit (g_c b) q = false).
        { apply (land0_tb _ _ _ Hd). rewrite N.lor_spec, (pow2_tb q q), N.eqb_refl. apply orb_true_r. }
        apply (Go [0%N; (2 ^ p)%N; (2 ^ q)%N; N.lor (2 ^ p) (2 ^ q)] (f_two_gate A D (N.lor (2 ^ p) (2 ^ q)) (g_c b) (g_cv b) (fun i j => f_entry A (m_at M i j))) (apply_mat [p; q] (ctrls (g_c b) (g_cv b)) (m_at M) psi)).
        * apply (f_two_close u eta A n B L); try assumption. intros i j Hi Hj. apply Hnear; lia.
        * intros a Ha. unfold gate_sem. cbn [g_base get_matrix]. now rewrite Hq.
        * cbn; lia.
        * repeat constructor; try assumption. apply lor_u64_pow2; assumption.
        * unfold f_update_plan. cbn [g_base]. now rewrite Hw, Hr, Hcl, Et.
  Qed.
End Gates.
