(** Every update of a well-formed gate object applies the gate's matrix. *)
From Verif Require Export GatesProofs2.
From Coq Require Import ZifyBool ZifyN ZifyNat Permutation Sorting.Sorted FunctionalExtensionality.

Definition base_ok (b : base) : Prop :=
  N.land (g_t b) (g_c b) = 0 /\ N.land (g_cv b) (g_c b) = g_cv b /\ g_t b < two64 /\ g_c b < two64.
Definition gate_wf (g : egate) : Prop :=
  base_ok (g_base g) /\
  let t := g_t (g_base g) in
  match g with
  | EI => True
  | EGlobalPhase _ _ => t = 0
  | EStd _ _ => exists q, t = 2 ^ q
  | ESwap _ => exists p q, p < q /\ t = N.lor (2 ^ p) (2 ^ q)
  | EEcr _ pc pt => exists p q, p <> q /\ pc = 2 ^ p /\ pt = 2 ^ q /\ t = N.lor pc pt
  | EPermutation b dst s => is_perm dst /\ (length dst < 64)%nat /\ s = perm_schedule dst /\
                            b = GBase (2 ^ N.of_nat (length dst) - 1) 0 0
  | EPauli _ p | EPauliRotation _ p _ => t = N.lor (p_bf p) (p_pf p)
  | EDense _ M _ => m_rows M = 2 ^ popcount t /\ m_cols M = 2 ^ popcount t
  | ESparse _ Sp => csr_rows Sp = 2 ^ popcount t /\ csr_ok Sp
  end.
Definition gate_fits (n : N) (g : egate) : Prop := g_t (g_base g) < 2 ^ n /\ g_c (g_base g) < 2 ^ n.
(** What the gate does to a state: its matrix on its targets under its controls. *)
Definition gate_sem (g : egate) (psi : state) : state :=
  apply_mat (bits (g_t (g_base g))) (ctrls (g_c (g_base g)) (g_cv (g_base g))) (m_at (get_matrix g)) psi.

Lemma lor_lt_iff a b n : N.lor a b < 2 ^ n <-> a < 2 ^ n /\ b < 2 ^ n.
Proof.
  split; [|intros [? ?]; now apply lor_u64_pow2]. intros H. split; apply lt_pow2_testbit; intros i Hi;
    pose proof (testbit_high _ n i H Hi) as E; rewrite N.lor_spec in E; now apply orb_false_iff in E.
Qed.
Lemma bound_value n : n < 64 -> sub64 (shl64 1 n) 1 = 2 ^ n - 1.
Proof.
  intros H. rewrite shl64_one by assumption. apply sub64_pred; [apply pow2_pos|]. unfold two64. apply N.pow_lt_mono_r; lia.
Qed.
Lemma within_bounds_iff n b : n < 64 -> within_bounds n b = true <-> g_t b < 2 ^ n /\ g_c b < 2 ^ n.
Proof.
  intros H. unfold within_bounds. rewrite bound_value by assumption. rewrite <- lor_lt_iff.
  pose proof (pow2_pos n). rewrite N.leb_le. lia.
Qed.
Lemma popcount_pow2 q : popcount (2 ^ q) = 1.
Proof. rewrite <- bits_length, bits_pow2. reflexivity. Qed.
Lemma bits_ones k : bits (2 ^ k - 1) = seqN k.
Proof.
  apply bits_unique.
  - clear. unfold seqN. generalize 0%nat at 1. generalize (N.to_nat k). induction n as [|n IH]; intros s; simpl; [constructor|].
    constructor; [apply IH|]. apply Forall_forall. intros x Hx. apply in_map_iff in Hx. destruct Hx as (y & <- & Hy).
    apply in_seq in Hy. lia.
  - intros i. rewrite in_seqN. replace (2 ^ k - 1) with (N.ones k) by (rewrite N.ones_equiv; lia).
    destruct (N.ltb_spec i k).
    + rewrite N.ones_spec_low by assumption. tauto.
    + rewrite N.ones_spec_high by assumption. split; [lia|discriminate].
Qed.
Lemma pow2_lt_inv q n : 2 ^ q < 2 ^ n -> q < n.
Proof. intros H. apply N.pow_lt_mono_r_iff in H; [assumption|lia]. Qed.
Lemma pow2_tb_disj q c : N.land (2 ^ q) c = 0 -> N.testbit c q = false.
Proof. intros H. apply (land0_tb (2 ^ q)); [assumption|]. rewrite pow2_tb. apply N.eqb_refl. Qed.

Lemma std1_kernel_computes n B L k q c cv psi :
  n <= 64 -> B * 2 ^ n <= two64 -> q < n -> c < 2 ^ n -> N.testbit c q = false -> N.land cv c = cv ->
  (L = 0 \/ exists l, l < 64 /\ L = 2 ^ l) ->
  kcomputes N.eqb (fun a => a <? B * 2 ^ n) (std1_kernel n (B * 2 ^ n) L k (2 ^ q) c cv) psi
    (fun a => if a <? B * 2 ^ n then apply_mat [q] (ctrls c cv) (std1_used k) psi a else psi a).
Proof.
  intros Hn HB Hq Hc Hd Hcv HL.
  assert (Hph : forall ph, kcomputes N.eqb (fun a => a <? B * 2 ^ n) (one_target_phase_gate (B * 2 ^ n) (2 ^ q) c cv ph) psi
    (fun a => if a <? B * 2 ^ n then apply_mat [q] (ctrls c cv) (mat2 C1 C0 C0 ph) psi a else psi a))
    by (intros; apply phase_computes; assumption).
  assert (Hde : forall M, kcomputes N.eqb (fun a => a <? B * 2 ^ n) (one_target_dense_matrix_gate n (B * 2 ^ n) L (2 ^ q) c cv M) psi
    (fun a => if a <? B * 2 ^ n then apply_mat [q] (ctrls c cv) M psi a else psi a))
    by (intros; apply one_target_computes; assumption).
  destruct k; [apply x_computes; assumption|apply y_computes; assumption|apply Hph|apply Hde|apply Hph|apply Hph|apply Hph
    |apply Hph|apply Hde|apply Hde|apply Hde|apply Hde|apply Hde|apply Hde|apply Hde|apply Hde
    |apply diagonal_computes; assumption|apply Hph|apply Hde|apply Hde].
Qed.
Lemma swap_mat_textbook : mat_eq 4 swap_mat swap_textbook.
Proof.
  intros i j Hi Hj. assert (Ei : i = 0 \/ i = 1 \/ i = 2 \/ i = 3) by lia. assert (Ej : j = 0 \/ j = 1 \/ j = 2 \/ j = 3) by lia.
  destruct Ei as [-> |[-> |[-> | ->]]]; destruct Ej as [-> |[-> |[-> | ->]]]; reflexivity.
Qed.
Ltac mat4_cases :=
  let i := fresh "i" in let j := fresh "j" in let Hi := fresh in let Hj := fresh in
  intros i j Hi Hj;
  assert (i = 0 \/ i = 1 \/ i = 2 \/ i = 3) as [-> |[-> |[-> | ->]]] by lia;
  assert (j = 0 \/ j = 1 \/ j = 2 \/ j = 3) as [-> |[-> |[-> | ->]]] by lia.
Lemma swap_matrix_eq b : mat_eq 4 swap_mat (m_at (get_matrix (ESwap b))).
Proof. mat4_cases; reflexivity. Qed.
Lemma ecr_mat_textbook : mat_eq 4 ecr_mat ecr_textbook.
Proof.
  mat4_cases; unfold ecr_mat, ecr_textbook, isq2; simpl; rewrite ?inv_sqrt2; unfold pauli1; simpl; c_eq; ring.
Qed.
Lemma ecr_get_matrix b p q : p < q -> mat_eq 4 ecr_mat (m_at (get_matrix (EEcr b (2 ^ p) (2 ^ q)))).
Proof.
  intros H. assert (2 ^ p < 2 ^ q) by (apply N.pow_lt_mono_r; lia).
  simpl. replace (2 ^ p <? 2 ^ q) with true by lia.
  mat4_cases; unfold ecr_mat, mat4; simpl; rewrite ?inv_sqrt2; c_eq; ring.
Qed.
(** bit 0 and bit 1 exchanged *)
Definition flip2 (i : N) : N := N.b2n (N.testbit i 1) + 2 * N.b2n (N.testbit i 0).
Lemma ecr_get_matrix' b p q : q < p -> mat_eq 4 (fun i j => ecr_mat (flip2 i) (flip2 j)) (m_at (get_matrix (EEcr b (2 ^ p) (2 ^ q)))).
Proof.
  intros H. assert (2 ^ q < 2 ^ p) by (apply N.pow_lt_mono_r; lia).
  simpl. replace (2 ^ p <? 2 ^ q) with false by lia. replace (2 ^ q <? 2 ^ p) with true by lia.
  mat4_cases; unfold ecr_mat, mat4, flip2; simpl; rewrite ?inv_sqrt2; c_eq; ring.
Qed.
Lemma flip2_gather p q x : flip2 (gather [p; q] x) = gather [q; p] x.
Proof. unfold flip2. cbn [gather]. destruct (N.testbit x p), (N.testbit x q); reflexivity. Qed.
Lemma apply_mat_swap2 p q cs M psi x : p <> q ->
  apply_mat [p; q] cs (fun i j => M (flip2 i) (flip2 j)) psi x = apply_mat [q; p] cs M psi x.
Proof.
  intros H. apply apply_mat_reorder.
  - repeat constructor; simpl; intuition.
  - repeat constructor; simpl; intuition.
  - intros t. simpl. intuition.
  - intros y z. now rewrite !flip2_gather.
Qed.

Section Correct.
  Variables (n B L : N).
  Hypothesis Hn : n < 64.
  Hypothesis HB : B * 2 ^ n <= two64.
  Hypothesis HL : L = 0 \/ exists l, l < 64 /\ L = 2 ^ l.
  Let D := B * 2 ^ n.

  Ltac inside := match goal with H : ?a < _ |- _ =>
    let E := fresh in assert (E : (a <? B * 2 ^ n) = true) by (apply N.ltb_lt; exact H); cbv beta; rewrite E; clear E end.

  Lemma update_correct g psi : gate_wf g -> gate_fits n g ->
    exists p, update_plan n D L g = Ok p /\ updates_to D p psi (gate_sem g psi).
  Proof.
    intros [(Hd & Hcv & Ht64 & Hc64) Hwf] [Ht Hc].
    assert (Hw : within_bounds n (g_base g) = true) by (apply within_bounds_iff; auto).
    assert (Hn' : n <= 64) by lia.
    assert (Hb0 : bits 0 = []) by reflexivity.
    unfold gate_sem, update_plan. destruct g; cbn [g_base] in *; rewrite ?Hw.
    - (* I *)
      eexists. split; [reflexivity|]. eapply updates_inplace; [intros a; reflexivity|]. intros a Ha.
      unfold apply_mat. cbn. rewrite Csum_1. unfold mat_id. simpl. ring.
    - (* GlobalPhase *)
      rewrite Hwf, Hb0. eexists. split; [reflexivity|]. eapply updates_inplace1; [apply zero_target_computes; assumption|].
      intros a Ha. inside. apply apply_mat_ext_mat. intros i j Hi Hj. simpl in *.
      assert (i = 0) by lia. assert (j = 0) by lia. subst. unfold mat_id. simpl. ring.
    - (* one target *)
      destruct Hwf as [q Hq]. rewrite Hq in *. rewrite bits_pow2. apply pow2_tb_disj in Hd. apply pow2_lt_inv in Ht.
      eexists. split; [reflexivity|]. eapply updates_inplace1; [apply std1_kernel_computes; assumption|].
      intros a Ha. inside. apply apply_mat_ext_mat. apply std1_used_matrix.
    - (* Swap *)
      destruct Hwf as (p & q & Hpq & Hq). rewrite Hq in *. rewrite bits_two by assumption.
      apply lor_lt_iff in Ht. destruct Ht as [Hp2 Hq2]. apply pow2_lt_inv in Hp2, Hq2.
      assert (Hdp : N.testbit (g_c b) p = false).
      { apply (land0_tb _ _ _ Hd). rewrite N.lor_spec, pow2_tb, N.eqb_refl. reflexivity. }
      assert (Hdq : N.testbit (g_c b) q = false).
      { apply (land0_tb _ _ _ Hd). rewrite N.lor_spec, (pow2_tb q q), N.eqb_refl. apply orb_true_r. }
      eexists. split; [reflexivity|]. eapply updates_inplace1; [apply swap_computes; try assumption; lia|].
      intros a Ha. inside. apply apply_mat_ext_mat. apply swap_matrix_eq.
    - (* Ecr *)
      destruct Hwf as (p & q & Hpq & -> & -> & Hq). rewrite Hq in *.
      apply lor_lt_iff in Ht. destruct Ht as [Hp2 Hq2]. apply pow2_lt_inv in Hp2, Hq2.
      assert (Hdp : N.testbit (g_c b) p = false).
      { apply (land0_tb _ _ _ Hd). rewrite N.lor_spec, pow2_tb, N.eqb_refl. reflexivity. }
      assert (Hdq : N.testbit (g_c b) q = false).
      { apply (land0_tb _ _ _ Hd). rewrite N.lor_spec, (pow2_tb q q), N.eqb_refl. apply orb_true_r. }
      eexists. split; [reflexivity|]. eapply updates_inplace1; [apply (ecr_computes n B p q); assumption|].
      intros a Ha. inside. destruct (N.lt_total p q) as [H|[H|H]]; [|contradiction|].
      + rewrite bits_two by assumption. apply apply_mat_ext_mat. now apply ecr_get_matrix.
      + rewrite N.lor_comm, bits_two by assumption.
        rewrite <- (apply_mat_ext_mat [q; p] _ (fun i j => ecr_mat (flip2 i) (flip2 j))) by now apply ecr_get_matrix'.
        symmetry. apply apply_mat_swap2. lia.
    - (* Permutation *)
      destruct Hwf as (HP & Hlen & -> & ->). cbn [g_t g_c g_cv] in *. rewrite bits_ones. change (ctrls 0 0) with (@nil (N * bool)).
      assert (Hk : N.of_nat (length dst) <= n).
      { destruct (N.leb_spec (N.of_nat (length dst)) n); [assumption|].
        assert (2 ^ n < 2 ^ N.of_nat (length dst)) by (apply N.pow_lt_mono_r; lia). lia. }
      eexists. split; [reflexivity|]. eapply updates_inplace.
      + apply permutation_gate_computes; [assumption|assumption|].
        destruct (perm_schedule_correct dst HP) as (_ & _ & HF). eapply Forall_impl; [|exact HF].
        intros [p q]. simpl. intros. lia.
      + intros a Ha. simpl. inside.
        rewrite <- (apply_mat_ext_mat _ _ (permutation_textbook dst)).
        * symmetry. now apply apply_permutation.
        * apply mat_eq_sym. simpl m_at. rewrite length_seqN, N2Nat.id. now apply perm_matrix_textbook.
    - (* Pauli *)
      rewrite Hwf in *. destruct (proj1 (lor_lt_iff _ _ _) Ht) as [Hbf Hpf].
      eexists. split; [reflexivity|]. eapply updates_inplace1.
      + apply apply_pauli_computes; try assumption.
        bitwise i. destruct (N.testbit (p_bf p) i) eqn:E; [|reflexivity]. simpl. apply (land0_tb _ _ _ Hd).
        rewrite N.lor_spec, E. reflexivity.
      + intros a Ha. simpl. inside.
        pose proof (popcount_le (N.lor (p_bf p) (p_pf p)) n Ht) as Hpc.
        rewrite (apply_mat_ext_mat _ _ _ (fun i j => (p_coef p * tensor (map (pauli_id_of (p_bf p) (p_pf p)) (bits (N.lor (p_bf p) (p_pf p)))) i j)%C)).
        * rewrite apply_mat_pauli by apply covers_bits. now rewrite ctrl_ok_ctrls by assumption.
        * rewrite bits_length. apply pauli_get_matrix_textbook; [assumption|lia].
    - (* PauliRotation *)
      rewrite Hwf in *. destruct (proj1 (lor_lt_iff _ _ _) Ht) as [Hbf Hpf].
      eexists. split; [reflexivity|]. eapply updates_inplace1.
      + apply apply_pauli_rotation_computes; try assumption.
        bitwise i. destruct (N.testbit (p_bf p) i) eqn:E; [|reflexivity]. simpl. apply (land0_tb _ _ _ Hd).
        rewrite N.lor_spec, E. reflexivity.
      + intros a Ha. cbv beta. inside.
        pose proof (popcount_le (N.lor (p_bf p) (p_pf p)) n Ht) as Hpc.
        set (h := Cscale (/ 2)%R (Cscale angle (p_coef p))).
        set (ts := bits (N.lor (p_bf p) (p_pf p))).
        set (P := tensor (map (pauli_id_of (p_bf p) (p_pf p)) ts)).
        rewrite (apply_mat_ext_mat _ _ _ (fun i j => (Ccos (- h) * mat_id i j + (Ci * Csin (- h)) * P i j)%C)).
        * assert (E : forall x y M, apply_mat ts (ctrls (g_c b) (g_cv b)) (fun i j => (x * mat_id i j + y * M i j)%C) psi a =
             if ctrl_ok (ctrls (g_c b) (g_cv b)) a then
               (x * apply_mat ts [] mat_id psi a + apply_mat ts [] (fun i j => y * M i j)%C psi a)%C else psi a).
          { intros x y M. unfold apply_mat. simpl ctrl_ok. destruct (ctrl_ok _ a); [|reflexivity]. cbv iota.
            rewrite <- Csum_mul_l, <- Csum_add. apply Csum_ext. intros; ring. }
          rewrite E. rewrite apply_mat_id by apply bits_NoDup. unfold P. rewrite apply_mat_pauli by apply covers_bits.
          rewrite ctrl_ok_ctrls by assumption. simpl. destruct (N.land a (g_c b) =? g_cv b); [|reflexivity]. ring.
        * intros i j Hi Hj. cbn [get_matrix m_at]. fold h. rewrite (pauli_get_matrix_ignoring_textbook p); try assumption.
          -- unfold pauli_textbook. fold ts. fold P. ring.
          -- lia.
          -- unfold ts in Hi. now rewrite bits_length in Hi.
          -- unfold ts in Hj. now rewrite bits_length in Hj.
    - (* Dense *)
      destruct Hwf as [Hr Hcl]. simpl get_matrix. destruct ((m_rows M =? 1) && (m_cols M =? 1)) eqn:E1.
      { apply andb_true_iff in E1. destruct E1 as [E1 _]. rewrite Hr in E1. apply N.eqb_eq in E1.
        assert (Hp0 : popcount (g_t b) = 0).
        { destruct (N.eq_dec (popcount (g_t b)) 0) as [|Hne]; [assumption|].
          assert (2 ^ 1 <= 2 ^ popcount (g_t b)) by (apply N.pow_le_mono_r; lia). lia. }
        assert (Hnil : bits (g_t b) = []).
        { apply length_zero_iff_nil. pose proof (bits_length (g_t b)). lia. }
        rewrite Hnil. eexists. split; [reflexivity|].
        eapply updates_inplace1; [apply zero_target_computes; assumption|].
        intros a Ha. inside. apply apply_mat_ext_mat. intros i j Hi Hj. simpl in *.
        assert (i = 0) by lia. assert (j = 0) by lia. now subst. }
      destruct ((m_rows M =? 2) && (m_cols M =? 2)) eqn:E2.
      { apply andb_true_iff in E2. destruct E2 as [E2 _]. rewrite Hr in E2. apply N.eqb_eq in E2.
        assert (Hp1 : popcount (g_t b) = 1).
        { change 2 with (2 ^ 1) in E2 at 2. apply N.pow_inj_r in E2; lia. }
        assert (Hq : exists q, bits (g_t b) = [q]).
        { pose proof (bits_length (g_t b)). destruct (bits (g_t b)) as [|q [|]]; simpl in *; try lia. eauto. }
        destruct Hq as [q Hq].
        assert (Et : g_t b = 2 ^ q).
        { apply N.bits_inj. intros i. apply eq_iff_eq_true. rewrite <- in_bits, Hq, pow2_tb, N.eqb_eq. simpl. intuition. }
        rewrite Hq, Et in *. apply pow2_tb_disj in Hd. apply pow2_lt_inv in Ht. eexists. split; [reflexivity|].
        eapply updates_inplace1; [apply one_target_computes; assumption|]. intros a Ha. inside. reflexivity. }
      destruct ((m_rows M =? 4) && (m_cols M =? 4)) eqn:E4.
      { apply andb_true_iff in E4. destruct E4 as [E4 _]. rewrite Hr in E4. apply N.eqb_eq in E4.
        assert (Hp1 : popcount (g_t b) = 2).
        { change 4 with (2 ^ 2) in E4. apply N.pow_inj_r in E4; lia. }
        assert (Hq : exists p q, bits (g_t b) = [p; q] /\ p < q).
        { pose proof (bits_length (g_t b)). pose proof (bits_incr (g_t b)) as Hi.
          destruct (bits (g_t b)) as [|p [|q [|]]]; simpl in *; try lia. exists p, q. split; [reflexivity|].
          inversion Hi as [|? ? _ Hf]; subst. inversion Hf; assumption. }
        destruct Hq as (p & q & Hq & Hpq).
        assert (Et : g_t b = N.lor (2 ^ p) (2 ^ q)).
        { apply N.bits_inj. intros i. apply eq_iff_eq_true. rewrite <- in_bits, Hq, N.lor_spec, !pow2_tb, orb_true_iff, !N.eqb_eq.
          simpl. intuition. }
        rewrite Hq, Et in *. apply lor_lt_iff in Ht. destruct Ht as [Hp2 Hq2]. apply pow2_lt_inv in Hp2, Hq2.
        assert (Hdp : N.testbit (g_c b) p = false).
        { apply (land0_tb _ _ _ Hd). rewrite N.lor_spec, pow2_tb, N.eqb_refl. reflexivity. }
        assert (Hdq : N.testbit (g_c b) q = false).
        { apply (land0_tb _ _ _ Hd). rewrite N.lor_spec, (pow2_tb q q), N.eqb_refl. apply orb_true_r. }
        eexists. split; [reflexivity|].
        eapply updates_inplace1; [apply two_target_dense_computes; try assumption; lia|].
        intros a Ha. inside. reflexivity. }
      eexists. split; [reflexivity|]. apply updates_buffered. intros junk.
      destruct (multi_dense_computes n B (g_t b) (g_c b) (g_cv b) Hn HB Ht Hc Hd Hcv (m_at M)
                  (fun a => if fst a then junk (snd a) else psi (snd a))) as (m' & H1 & H2).
      exists m'. split; [exact H1|]. intros a Ha. rewrite H2 by assumption. apply apply_mat_ext. reflexivity.
    - (* Sparse *)
      destruct Hwf as [Hr Hok]. eexists. split; [reflexivity|]. apply updates_buffered. intros junk.
      destruct (sparse_computes n B (g_t b) (g_c b) (g_cv b) Hn HB Ht Hc Hd Hcv S
                  (fun a => if fst a then junk (snd a) else psi (snd a)) Hr (csr_ok_wf S Hok)) as (m' & H1 & H2).
      exists m'. split; [exact H1|]. intros a Ha. rewrite H2 by assumption.
      rewrite (apply_mat_ext_mat _ _ _ (m_at (get_matrix (ESparse b S)))).
      + apply apply_mat_ext. reflexivity.
      + intros i j Hi Hj. rewrite bits_length, <- Hr in Hi. simpl. rewrite csr_dense_sum by assumption. symmetry. apply csr_sum_matrix.
  Qed.
End Correct.
