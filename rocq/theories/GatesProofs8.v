(** Inverses and norms at the level of calls. *)
From Verif Require Export GatesProofs7.
From Coq Require Import ZifyBool ZifyN ZifyNat Permutation Sorting.Sorted FunctionalExtensionality.

Lemma unitary_reindex d f A : (forall i, i < d -> f i < d) -> (forall i j, i < d -> j < d -> f i = f j -> i = j) ->
  (forall k, k < d -> exists i, i < d /\ f i = k) -> unitary d A -> unitary d (fun i j => A (f i) (f j)).
Proof.
  intros Hf Hi Hs [H1 H2].
  assert (Hid : forall i j, i < d -> j < d -> mat_id (f i) (f j) = mat_id i j).
  { intros i j Hi' Hj. unfold mat_id. destruct (N.eqb_spec i j) as [-> |Hne]; [now rewrite N.eqb_refl|].
    destruct (N.eqb_spec (f i) (f j)) as [E|]; [|reflexivity]. exfalso. auto. }
  split; intros i j Hi' Hj; rewrite <- Hid by assumption.
  - rewrite <- (H1 (f i) (f j)) by auto. unfold mat_mul, mat_adj.
    apply (Csum_reindex d d f (fun k => (Cconj (A k (f i)) * A k (f j))%C)); assumption.
  - rewrite <- (H2 (f i) (f j)) by auto. unfold mat_mul, mat_adj.
    apply (Csum_reindex d d f (fun k => (A (f i) k * Cconj (A (f j) k))%C)); assumption.
Qed.
Lemma transformed_index_bij ts : NoDup ts -> (length ts <= 64)%nat -> let d := 2 ^ N.of_nat (length ts) in
  (forall i, i < d -> transformed_index ts i < d) /\
  (forall i j, i < d -> j < d -> transformed_index ts i = transformed_index ts j -> i = j) /\
  (forall k, k < d -> exists i, i < d /\ transformed_index ts i = k).
Proof.
  intros Hnd Hl d. assert (Hsd : NoDup (sortN ts)).
  { apply incr_NoDup. now apply sortN_incr. }
  assert (Hd : 2 ^ N.of_nat (length (sortN ts)) = d) by (unfold d; now rewrite sortN_length).
  assert (Hrep : forall i, i < d -> transformed_index ts i = gather ts (scatter (sortN ts) i 0)).
  { intros i Hi. rewrite <- (transformed_index_gather ts) by assumption. rewrite gather_scatter; [reflexivity|assumption|now rewrite Hd]. }
  split; [|split].
  - intros i Hi. rewrite Hrep by assumption. apply gather_lt.
  - intros i j Hi Hj E. rewrite !Hrep in E by assumption.
    assert (E2 : gather (sortN ts) (scatter (sortN ts) i 0) = gather (sortN ts) (scatter (sortN ts) j 0)).
    { apply gather_inj_ext. intros q Hq. rewrite sortN_in in Hq. apply In_nth_error in Hq. destruct Hq as [k Hk].
      assert (E' := f_equal (fun x => N.testbit x (N.of_nat k)) E). cbv beta in E'. rewrite !gather_tb, Hk in E'. exact E'. }
    rewrite !gather_scatter in E2; try assumption; now rewrite Hd.
  - intros k Hk. exists (gather (sortN ts) (scatter ts k 0)). split.
    + rewrite <- Hd. apply gather_lt.
    + rewrite transformed_index_gather by assumption. now apply gather_scatter.
Qed.

Lemma make_inverse_ok vf k g : make vf k = Ok g -> call_invertible k -> inverse_ok g.
Proof.
  intros H Hi. destruct k; cbn [make call_invertible] in *;
    try solve [inv_bind H; apply create_ok in H; destruct H as (? & ? & ? & _ & _ & _ & _ & ->); exact I
              |apply create_ok in H; destruct H as (? & ? & ? & _ & _ & _ & _ & ->); exact I].
  - injection H as <-. exact I.
  - inv_bind H. inv_bind H. destruct v0 as [[t c] cv]. inv_bind H. inv_bind H. inv_bind H. injection H as <-. exact I.
  - destruct (64 <=? _); [discriminate|]. inv_bind H. destruct (negb _); [discriminate|]. unfold make_permutation_impl in H.
    inv_bind H. destruct (64 <=? _); [discriminate|]. destruct (negb _); [discriminate|]. inv_bind H. injection H as <-. exact I.
  - inv_bind H. inv_bind H. destruct v0 as [[t c] cv]. inv_bind H. injection H as <-. exact Hi.
  - inv_bind H. inv_bind H. destruct v0 as [[t c] cv]. inv_bind H. injection H as <-. exact I.
  - inv_bind H. destruct (64 <=? _) eqn:E64; [discriminate|]. rewrite shl64_one in H by lia.
    destruct (m_rows M =? _) eqn:E1; [|discriminate]. destruct (m_cols M =? _) eqn:E2; [|discriminate]. cbn [negb orb] in H.
    apply N.eqb_eq in E1. apply create_ok in H; destruct H as (t & c & cv & Ht & _ & _ & _ & ->).
    apply vector_to_mask_ok in Ht. destruct Ht as (_ & Hnd & _). cbn [inverse_ok].
    destruct (is_sorted targets); [now rewrite E1|]. cbn [transform_dense_matrix_by_order m_rows m_at]. rewrite E1.
    destruct (transformed_index_bij targets Hnd ltac:(lia)) as (B1 & B2 & B3). now apply unitary_reindex.
  - inv_bind H. destruct (is_sorted _); [|destruct (_ || _); [discriminate|]];
      apply create_ok in H; destruct H as (? & ? & ? & _ & _ & _ & _ & ->); exact I.
Qed.
Lemma gate_sem_ext n B g psi phi a : gate_wf g -> gate_fits n g -> (forall x, x < B * 2 ^ n -> psi x = phi x) -> a < B * 2 ^ n ->
  gate_sem g psi a = gate_sem g phi a.
Proof.
  intros Hw Hf H Ha. pose proof (gate_ops_wf n g Hw Hf) as Hops. unfold gate_sem.
  eapply (apply_mat_local_flat _ _ _ _ _ n B); [apply bits_NoDup| |exact H|exact Ha]. exact (wf_lt _ _ _ Hops).
Qed.
Lemma updates_to_inverse n B L g g' psi : n < 64 -> B * 2 ^ n <= two64 -> lanes_ok L ->
  gate_wf g -> gate_fits n g -> gate_wf g' -> gate_fits n g' ->
  (forall phi x, gate_sem g' (gate_sem g phi) x = phi x) ->
  exists p p', update_plan n (B * 2 ^ n) L g = Ok p /\ update_plan n (B * 2 ^ n) L g' = Ok p' /\
    (forall junk, exists scheds r, run_plan (B * 2 ^ n) p junk scheds psi = Finished r) /\
    (forall junk scheds r, run_plan (B * 2 ^ n) p junk scheds psi = Finished r -> updates_to (B * 2 ^ n) p' r psi).
Proof.
  intros Hn HB HL Hw Hf Hw' Hf' Hinv.
  destruct (update_correct n B L Hn HB HL g psi Hw Hf) as (p & Hp & Hu).
  exists p. destruct (update_correct n B L Hn HB HL g' psi Hw' Hf') as (p' & Hp' & _).
  exists p'. split; [assumption|]. split; [assumption|]. split; [apply Hu|]. intros junk scheds r Hr.
  destruct (update_correct n B L Hn HB HL g' r Hw' Hf') as (p'' & Hp'' & Hu'). rewrite Hp' in Hp''. injection Hp'' as <-.
  eapply updates_to_ext; [|exact Hu']. intros a Ha.
  rewrite (gate_sem_ext n B g' r (gate_sem g psi)); try assumption; [apply Hinv|].
  apply (updates_to_run _ _ _ _ _ _ _ Hu Hr).
Qed.
Theorem call_inverse vf k g g' n B L psi : call_typed k -> make vf k = Ok g -> get_inverse g = Ok g' -> call_invertible k ->
  Forall (fun q => q < n) (call_operands k) -> n < 64 -> B * 2 ^ n <= two64 -> lanes_ok L ->
  exists p p', update_plan n (B * 2 ^ n) L g = Ok p /\ update_plan n (B * 2 ^ n) L g' = Ok p' /\
    (forall junk, exists scheds r, run_plan (B * 2 ^ n) p junk scheds psi = Finished r) /\
    (forall junk scheds r, run_plan (B * 2 ^ n) p junk scheds psi = Finished r -> updates_to (B * 2 ^ n) p' r psi) /\
    (forall junk, exists scheds r, run_plan (B * 2 ^ n) p' junk scheds psi = Finished r) /\
    (forall junk scheds r, run_plan (B * 2 ^ n) p' junk scheds psi = Finished r -> updates_to (B * 2 ^ n) p r psi).
Proof.
  intros Hty H Hg Hi HF Hn HB HL. pose proof (make_means vf k g Hty H) as Hm. pose proof (means_wf _ _ _ _ Hm) as Hw.
  pose proof (means_fits _ _ _ _ _ Hm HF) as Hf. pose proof (make_inverse_ok vf k g H Hi) as Hio.
  destruct (inverse_correct n g g' Hn Hw Hf Hg Hio) as (Hw' & Hb & _).
  assert (Hf' : gate_fits n g') by (unfold gate_fits; rewrite Hb; exact Hf).
  destruct (updates_to_inverse n B L g g' psi Hn HB HL Hw Hf Hw' Hf') as (p & p' & Hp & Hp' & H1 & H2).
  { intros phi x. apply (gate_sem_inverse n g g' phi x Hn Hw Hf Hg Hio). }
  destruct (updates_to_inverse n B L g' g psi Hn HB HL Hw' Hf' Hw Hf) as (q & q' & Hq & Hq' & H3 & H4).
  { intros phi x. apply (gate_sem_inverse n g g' phi x Hn Hw Hf Hg Hio). }
  rewrite Hp' in Hq. injection Hq as <-. rewrite Hp in Hq'. injection Hq' as <-. exists p, p'. repeat (split; [assumption|]). assumption.
Qed.
Lemma inverse_available vf k g : call_typed k -> make vf k = Ok g ->
  if has_inverse k then exists g', get_inverse g = Ok g' else get_inverse g = Throw.
Proof.
  intros Hty H. pose proof (means_wf _ _ _ _ (make_means vf k g Hty H)) as [Hb Hw]. destruct k; cbn [make has_inverse] in *.
  - injection H as <-. eexists; reflexivity.
  - inv_bind H; apply create_ok in H; destruct H as (? & ? & ? & _ & _ & _ & _ & ->). cbn [get_inverse g_base] in *.
    rewrite make_base_same by assumption. eexists; reflexivity.
  - inv_bind H; apply create_ok in H; destruct H as (? & ? & ? & _ & _ & _ & _ & ->). cbn [get_inverse g_base] in *.
    destruct k; cbn [std1_inverse bindR]; try reflexivity; rewrite make_base_same by assumption; eexists; reflexivity.
  - apply create_ok in H; destruct H as (? & ? & ? & _ & _ & _ & _ & ->). cbn [get_inverse g_base std1_inverse bindR] in *.
    rewrite make_base_same by assumption. eexists; reflexivity.
  - apply create_ok in H; destruct H as (? & ? & ? & _ & _ & _ & _ & ->). cbn [get_inverse g_base std1_inverse bindR] in *.
    rewrite make_base_same by assumption. eexists; reflexivity.
  - apply create_ok in H; destruct H as (? & ? & ? & _ & _ & _ & _ & ->). cbn [get_inverse g_base std1_inverse bindR] in *.
    rewrite make_base_same by assumption. eexists; reflexivity.
  - inv_bind H; apply create_ok in H; destruct H as (? & ? & ? & _ & _ & _ & _ & ->). eexists; reflexivity.
  - inv_bind H. inv_bind H. destruct v0 as [[t c] cv]. inv_bind H. inv_bind H. inv_bind H. injection H as <-. eexists; reflexivity.
  - destruct (64 <=? _); [discriminate|]. inv_bind H. destruct (negb _); [discriminate|]. unfold make_permutation_impl in H.
    inv_bind H. destruct (64 <=? _); [discriminate|]. destruct (negb _); [discriminate|]. inv_bind H. injection H as <-.
    cbn [gate_wf g_base get_inverse] in *. destruct Hw as (HP & Hl & _). pose proof (perm_inverse_perm dst HP Hl).
    rewrite make_permutation_impl_ok by (auto; rewrite perm_inverse_length; assumption). eexists; reflexivity.
  - inv_bind H. inv_bind H. destruct v0 as [[t c] cv]. inv_bind H. injection H as <-. eexists; reflexivity.
  - inv_bind H. inv_bind H. destruct v0 as [[t c] cv]. inv_bind H. injection H as <-.
    cbn [get_inverse g_base] in *. rewrite make_pauli_base_same by assumption. eexists; reflexivity.
  - inv_bind H. destruct (64 <=? _) eqn:E64; [discriminate|]. destruct (_ || _); [discriminate|].
    apply create_ok in H; destruct H as (t & c & cv & Ht & _ & _ & _ & ->). cbn [get_inverse g_base] in *.
    destruct is_unitary; [|reflexivity]. rewrite make_base_same by assumption. eexists; reflexivity.
  - inv_bind H. destruct (is_sorted _); [|destruct (_ || _); [discriminate|]];
      apply create_ok in H; destruct H as (? & ? & ? & _ & _ & _ & _ & ->); reflexivity.
Qed.

(** ** Norm *)
Lemma make_unitary vf k g : make vf k = Ok g -> call_unitary k ->
  match k with CallDense _ _ _ _ _ | CallSparse _ _ _ _ => True | _ => gate_unitary g end.
Proof.
  intros H Hi. destruct k; cbn [make call_unitary] in *; try exact I;
    try solve [inv_bind H; apply create_ok in H; destruct H as (? & ? & ? & _ & _ & _ & _ & ->); exact I
              |apply create_ok in H; destruct H as (? & ? & ? & _ & _ & _ & _ & ->); exact I].
  - injection H as <-. exact I.
  - inv_bind H; apply create_ok in H; destruct H as (? & ? & ? & _ & _ & _ & _ & ->). cbn [gate_unitary]. destruct k; auto.
  - inv_bind H. inv_bind H. destruct v0 as [[t c] cv]. inv_bind H. inv_bind H. inv_bind H. injection H as <-. exact I.
  - destruct (64 <=? _); [discriminate|]. inv_bind H. destruct (negb _); [discriminate|]. unfold make_permutation_impl in H.
    inv_bind H. destruct (64 <=? _); [discriminate|]. destruct (negb _); [discriminate|]. inv_bind H. injection H as <-. exact I.
  - inv_bind H. inv_bind H. destruct v0 as [[t c] cv]. inv_bind H. injection H as <-. exact Hi.
  - inv_bind H. inv_bind H. destruct v0 as [[t c] cv]. inv_bind H. injection H as <-. exact Hi.
Qed.
Lemma map_fst_combine {T U} (l : list T) : forall (l' : list U), length l = length l' -> map fst (combine l l') = l.
Proof. induction l as [|x l IH]; intros [|y l'] H; simpl in *; try discriminate; [reflexivity|]. rewrite IH; [reflexivity|lia]. Qed.
Lemma call_wf_ops vf k g n : call_typed k -> make vf k = Ok g -> Forall (fun q => q < n) (call_operands k) ->
  wf_ops n (call_targets k) (call_controls k).
Proof.
  intros Hty H HF. split; [|exact HF].
  pose proof (make_means vf k g Hty H) as Hm. pose proof (call_targets_NoDup vf k g Hty H) as Hnd.
  destruct (means_wf _ _ _ _ Hm) as [(Hd & _) _]. rewrite land_disjoint in Hd.
  apply NoDup_app_intro; [assumption| |].
  - (* controls *) assert (Hok : forall cs vs0 vs c, resize_and_check_control_values cs vs0 = Ok vs -> vector_to_mask cs = Ok c ->
      NoDup (map fst (with_values cs vs0))).
    { intros cs vs0 vs c Hr Hc. destruct (resize_cases cs vs0) as [(vs' & Hr' & Hl & E)|[E _]]; [|congruence].
      apply vector_to_mask_ok in Hc. destruct Hc as (_ & Hc & _). unfold with_values. rewrite <- E.
      rewrite map_fst_combine by (rewrite map_length; lia). assumption. }
    destruct k; cbn [make call_controls] in *; try solve [constructor];
      try solve [inv_bind H; apply create_ok in H; destruct H as (? & ? & ? & _ & Hc & _); eapply Hok; eassumption
                |apply create_ok in H; destruct H as (? & ? & ? & _ & Hc & _); simpl; apply vector_to_mask_ok in Hc; tauto].
    + inv_bind H. inv_bind H. destruct v0 as [[t c] cv]. apply mask_args_ok in E0. destruct E0 as (_ & Hc & _). eapply Hok; eassumption.
    + inv_bind H. inv_bind H. destruct v0 as [[t c] cv]. apply mask_args_ok in E0. destruct E0 as (_ & Hc & _). eapply Hok; eassumption.
    + inv_bind H. inv_bind H. destruct v0 as [[t c] cv]. apply mask_args_ok in E0. destruct E0 as (_ & Hc & _). eapply Hok; eassumption.
    + inv_bind H. destruct (64 <=? _) eqn:E64; [discriminate|]. destruct (_ || _); [discriminate|].
      apply create_ok in H; destruct H as (? & ? & ? & _ & Hc & _); eapply Hok; eassumption.
    + inv_bind H. destruct (is_sorted _); [|destruct (_ || _); [discriminate|]];
      apply create_ok in H; destruct H as (? & ? & ? & _ & Hc & _); eapply Hok; eassumption.
  - intros x Hx Hc. apply (Hd x); [now apply (means_t _ _ _ _ Hm)|now apply (means_c _ _ _ _ Hm)].
Qed.
Lemma norm2_ext n psi phi : (forall i, i < 2 ^ n -> psi i = phi i) -> norm2 n psi = norm2 n phi.
Proof. intros H. unfold norm2, inner. apply Csum_ext. intros i Hi. now rewrite H. Qed.
Theorem call_norm vf k g n B L psi : call_typed k -> make vf k = Ok g -> call_unitary k ->
  Forall (fun q => q < n) (call_operands k) -> n < 64 -> B * 2 ^ n <= two64 -> lanes_ok L ->
  exists p, update_plan n (B * 2 ^ n) L g = Ok p /\
    (forall junk, exists scheds r, run_plan (B * 2 ^ n) p junk scheds psi = Finished r) /\
    forall junk scheds r b, run_plan (B * 2 ^ n) p junk scheds psi = Finished r -> b < B ->
      norm2 n (batch n b r) = norm2 n (batch n b psi).
Proof.
  intros Hty H Hu HF Hn HB HL. destruct (call_correct vf k g n B L psi Hty H HF Hn HB HL) as (p & Hp & Hup).
  exists p. split; [assumption|]. split; [apply Hup|]. intros junk scheds r b Hr Hb.
  pose proof (updates_to_run _ _ _ _ _ _ _ Hup Hr) as Hres. pose proof (call_wf_ops vf k g n Hty H HF) as Hops.
  pose proof (wf_NoDup _ _ _ Hops) as Hnd.
  rewrite (norm2_ext n (batch n b r) (apply_mat (call_targets k) (call_controls k) (call_matrix k) (batch n b psi))).
  2:{ intros i Hi. unfold batch at 1. rewrite Hres by nia. change (apply_mat (call_targets k) (call_controls k) (call_matrix k) psi (b * 2 ^ n + i))
        with (batch n b (apply_mat (call_targets k) (call_controls k) (call_matrix k) psi) i). now apply apply_mat_batch. }
  pose proof (make_unitary vf k g H Hu) as Hgu. pose proof (make_means vf k g Hty H) as Hm.
  assert (Hgate : gate_unitary g -> norm2 n (apply_mat (call_targets k) (call_controls k) (call_matrix k) (batch n b psi)) = norm2 n (batch n b psi)).
  { intros Hg. rewrite <- (gate_sem_norm n g (batch n b psi)); [|assumption|exact (means_wf _ _ _ _ Hm)|exact (means_fits _ _ _ _ _ Hm HF)|assumption].
    apply norm2_ext. intros i _. symmetry. apply (means_sem _ _ _ _ Hm). apply Forall_app in HF. destruct HF as [Ft _].
    pose proof (call_targets_len vf k g n Hty H Ft). lia. }
  destruct k; try exact (Hgate Hgu).
  - apply apply_mat_unitary_inner; [assumption|]. apply Hu.
  - apply apply_mat_unitary_inner; [assumption|]. apply Hu.
Qed.
