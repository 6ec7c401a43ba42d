(** Gates on density matrices. *)
From Verif Require Export DensitySpec DensityProofs3 GatesProofs9.
From Coq Require Import ZifyBool ZifyN ZifyNat Permutation FunctionalExtensionality.

(** ** The matrix of an operation *)
Definition full_of (ts : list N) (cs : list (N * bool)) (M : matrix) : matrix := fun i j => apply_mat ts cs M (basis j) i.
Lemma basis_eq j x : basis j x = if x =? j then C1 else C0.
Proof. reflexivity. Qed.
Lemma apply_mat_full n ts cs M psi x : wf_ops n ts cs -> x < 2 ^ n ->
  apply_mat ts cs M psi x = Csum (2 ^ n) (fun k => (full_of ts cs M x k * psi k)%C).
Proof.
  intros Hw Hx. unfold full_of, apply_mat. destruct (ctrl_ok cs x).
  - transitivity (Csum (2 ^ n) (fun k => Csum (2 ^ N.of_nat (length ts)) (fun j => (M (gather ts x) j * basis k (scatter ts j x) * psi k)%C))).
    + rewrite Csum_swap. apply Csum_ext. intros j _. symmetry.
      rewrite (Csum_single (2 ^ n) _ (scatter ts j x)).
      * rewrite basis_eq, N.eqb_refl. ring.
      * apply scatter_lt; [eapply wf_NoDup|eapply wf_lt|]; eassumption.
      * intros k _ Hk. rewrite basis_eq. apply not_eq_sym, N.eqb_neq in Hk. rewrite Hk. ring.
    + apply Csum_ext. intros k _. now rewrite Csum_mul_r.
  - symmetry. rewrite (Csum_single (2 ^ n) _ x); [|assumption|].
    + rewrite basis_eq, N.eqb_refl. ring.
    + intros k _ Hk. rewrite basis_eq. apply not_eq_sym, N.eqb_neq in Hk. rewrite Hk. ring.
Qed.
Lemma apply_mat_conjm ts cs M psi x : apply_mat ts cs (conjm M) psi x = Cconj (apply_mat ts cs M (fun i => Cconj (psi i)) x).
Proof.
  unfold apply_mat. destruct (ctrl_ok cs x); [|now rewrite Cconj_invol]. rewrite Csum_conj. apply Csum_ext. intros j _.
  unfold conjm. now rewrite Cconj_mul, Cconj_invol.
Qed.
Definition curry (m : dmem) : matrix := fun i j => m (i, j).
Lemma conjugated_sandwich n ts cs M m i j : wf_ops n ts cs -> i < 2 ^ n -> j < 2 ^ n ->
  conjugated ts cs M m (i, j) = sandwich (2 ^ n) (full_of ts cs M) (curry m) i j.
Proof.
  intros Hw Hi Hj. unfold conjugated. cbn [fst snd]. rewrite (apply_mat_full n) by assumption.
  transitivity (Csum (2 ^ n) (fun k => Csum (2 ^ n) (fun l => (full_of ts cs M i k * curry m k l * Cconj (full_of ts cs M j l))%C))).
  - apply Csum_ext. intros k Hk. rewrite apply_mat_conjm, (apply_mat_full n), Csum_conj by assumption. rewrite <- Csum_mul_l.
    apply Csum_ext. intros l _. rewrite Cconj_mul, Cconj_invol. unfold curry. ring.
  - rewrite Csum_swap. unfold sandwich, mat_mul at 1. apply Csum_ext. intros l _. unfold mat_mul, mat_adj. now rewrite <- Csum_mul_r.
Qed.
Lemma full_of_ext n ts cs M ts' cs' M' : (forall psi x, apply_mat ts cs M psi x = apply_mat ts' cs' M' psi x) ->
  mat_eq n (full_of ts cs M) (full_of ts' cs' M').
Proof. intros H i j _ _. apply H. Qed.
Lemma sandwich_ext d U U' M M' : mat_eq d U U' -> mat_eq d M M' -> mat_eq d (sandwich d U M) (sandwich d U' M').
Proof.
  intros HU HM. unfold sandwich. apply mat_mul_ext; [now apply mat_mul_ext|].
  intros i j Hi Hj. unfold mat_adj. now rewrite HU.
Qed.

(** ** Gate objects *)
Definition dm_object (g : egate) : bool :=
  match g with EI | EGlobalPhase _ _ | EStd _ _ | ESwap _ | EEcr _ _ _ => true | _ => false end.
Definition sem_mat (g : egate) : matrix :=
  full_of (bits (g_t (g_base g))) (ctrls (g_c (g_base g)) (g_cv (g_base g))) (m_at (get_matrix g)).

Lemma ecr_table_mat : mat_eq 4 dm_ecr_table ecr_mat.
Proof. mat4_cases; unfold dm_ecr_table, mat4, ecr_mat; cbn; Csolve. Qed.
Lemma kl_ext n ks m f f' : kcomputes_list pair_eqb (d_valid n) ks m (inside n f m) ->
  (forall i j, i < 2 ^ n -> j < 2 ^ n -> f (i, j) = f' (i, j)) -> kcomputes_list pair_eqb (d_valid n) ks m (inside n f' m).
Proof.
  intros H E. replace (inside n f' m) with (inside n f m); [exact H|]. apply functional_extensionality. intros [i j]. unfold inside, d_valid.
  cbn [fst snd]. destruct (N.ltb_spec i (2 ^ n)), (N.ltb_spec j (2 ^ n)); cbn [andb]; auto.
Qed.
Lemma dm_std1_computes n k q c cv m : n < 32 -> q < n -> c < 2 ^ n -> N.land (2 ^ q) c = 0 -> N.land cv c = cv ->
  kcomputes_list pair_eqb (d_valid n) (dm_std1 n k (2 ^ q) c cv) m (inside n (conjugated [q] (ctrls c cv) (std1_used k) m) m).
Proof.
  intros Hn Hq Hc Hd Hcv.
  pose proof (dense_dm_computes n q Hn Hq c cv Hc Hd Hcv) as De. pose proof (diag_dm_computes n q Hn Hq c cv Hc Hd Hcv) as Di.
  assert (Ph : forall p m, (p * Cconj p = C1)%C -> kcomputes_list pair_eqb (d_valid n) (dm_phase n (2 ^ q) c cv p) m
    (inside n (conjugated [q] (ctrls c cv) (mat2 C1 C0 C0 p) m) m)) by (intros; now apply phase_dm_computes).
  assert (Hs : (INVERSE_SQRT2 * INVERSE_SQRT2 = 1 / 2)%R).
  { unfold INVERSE_SQRT2. pose proof (sqrt_sqrt 2 ltac:(lra)). nra. }
  destruct k; cbn [dm_std1 std1_used];
    try apply De; try apply Di; try (apply Ph; unfold Ci; Cunfold; c_eq; nra).
  - now apply x_dm_computes.
  - now apply y_dm_computes.
Qed.

Lemma dm_gate_computes n g m : n < 32 -> gate_wf g -> gate_fits n g -> dm_object g = true ->
  exists ks, dm_update_plan n g = Ok ks /\
    kcomputes_list pair_eqb (d_valid n) ks m (inside n (fun a => sandwich (2 ^ n) (sem_mat g) (curry m) (fst a) (snd a)) m).
Proof.
  intros Hn Hw [Ht Hc] Ho. pose proof Hw as [(Hd & Hcv & Ht64 & Hc64) Hk]. unfold dm_update_plan.
  assert (Hb : within_bounds n (g_base g) = true) by (apply within_bounds_iff; [lia|split; assumption]).
  pose proof (gate_ops_wf n g Hw (conj Ht Hc)) as Hops. cbn [gate_ops fst snd] in Hops.
  assert (Fin : forall ks ts M, wf_ops n ts (ctrls (g_c (g_base g)) (g_cv (g_base g))) ->
    (forall psi x, apply_mat ts (ctrls (g_c (g_base g)) (g_cv (g_base g))) M psi x = gate_sem g psi x) ->
    kcomputes_list pair_eqb (d_valid n) ks m (inside n (conjugated ts (ctrls (g_c (g_base g)) (g_cv (g_base g))) M m) m) ->
    kcomputes_list pair_eqb (d_valid n) ks m (inside n (fun a => sandwich (2 ^ n) (sem_mat g) (curry m) (fst a) (snd a)) m)).
  { intros ks ts M W E K. eapply kl_ext; [exact K|]. intros i j Hi Hj. rewrite (conjugated_sandwich n) by assumption. cbn [fst snd].
    apply sandwich_ext; [|apply mat_eq_refl|assumption|assumption]. apply full_of_ext. exact E. }
  destruct g; try discriminate Ho; cbn [g_base] in *; rewrite ?Hb; eexists; (split; [reflexivity|]).
  - (* I *)
    apply (Fin [] [] (fun _ _ => C1)); [exact Hops| |].
    + intros psi x. unfold gate_sem. cbn [g_base]. apply apply_mat_ext_mat. intros i j Hi Hj. cbn in Hi, Hj.
      assert (i = 0) by lia. assert (j = 0) by lia. now subst.
    + cbn [kcomputes_list]. intros [i j]. unfold inside. destruct (d_valid n (i, j)); [|reflexivity].
      unfold conjugated, apply_mat. cbn [ctrl_ok forallb ctrls bits g_base g_t g_c g_cv]. cbn [fst snd].
      change (2 ^ N.of_nat (length (@nil N))) with 1. cbn. rewrite !Csum_1. unfold conjm. rewrite Cconj_1. cbn. ring.
  - (* GlobalPhase *)
    rewrite Hk in Hops. change (bits 0) with (@nil N) in Hops.
    eapply Fin; [exact Hops| |now apply global_dm_computes].
    intros psi x. unfold gate_sem. cbn [g_base]. rewrite Hk. change (bits 0) with (@nil N).
    apply apply_mat_ext_mat. intros i j Hi Hj. cbn in Hi, Hj |- *. assert (i = 0) by lia. assert (j = 0) by lia. subst.
    unfold mat_id. simpl. ring.
  - (* one target *)
    destruct Hk as [q Hq]. rewrite Hq in *. rewrite bits_pow2 in Hops. apply pow2_lt_inv in Ht.
    eapply Fin; [exact Hops| |now apply dm_std1_computes].
    intros psi x. unfold gate_sem. cbn [g_base]. rewrite Hq, bits_pow2. apply apply_mat_ext_mat. apply std1_used_matrix.
  - (* Swap *)
    destruct Hk as (p & q & Hpq & Hq). rewrite Hq in *. rewrite bits_two in Hops by assumption.
    apply lor_lt_iff in Ht. destruct Ht as [Hp2 Hq2]. apply pow2_lt_inv in Hp2, Hq2.
    eapply Fin; [exact Hops| |apply swap_dm_computes; try assumption; lia].
    intros psi x. unfold gate_sem. cbn [g_base]. rewrite Hq, bits_two by assumption. apply apply_mat_ext_mat. apply swap_matrix_eq.
  - (* Ecr *)
    destruct Hk as (p & q & Hpq & -> & -> & Hq). rewrite Hq in *.
    apply lor_lt_iff in Ht. destruct Ht as [Hp2 Hq2]. apply pow2_lt_inv in Hp2, Hq2.
    assert (W : wf_ops n [p; q] (ctrls (g_c b) (g_cv b))).
    { destruct (N.lt_total p q) as [H|[H|H]]; [|contradiction|].
      - now rewrite bits_two in Hops.
      - rewrite N.lor_comm, bits_two in Hops by assumption. destruct Hops as [W1 W2]. split.
        + cbn [app] in W1 |- *. eapply Permutation_NoDup; [|exact W1]. apply perm_swap.
        + cbn [app] in W2 |- *. inversion_clear W2 as [|? ? A B]. inversion_clear B. repeat constructor; assumption. }
    eapply Fin; [exact W| |now apply ecr_dm_computes].
    intros psi x. rewrite (apply_mat_ext_mat [p; q] _ dm_ecr_table ecr_mat) by exact ecr_table_mat.
    unfold gate_sem. cbn [g_base]. rewrite Hq. destruct (N.lt_total p q) as [H|[H|H]]; [|contradiction|].
    + rewrite bits_two by assumption. apply apply_mat_ext_mat. now apply ecr_get_matrix.
    + rewrite N.lor_comm, bits_two by assumption.
      rewrite <- (apply_mat_ext_mat [q; p] _ (fun i j => ecr_mat (flip2 i) (flip2 j))) by now apply ecr_get_matrix'.
      symmetry. apply apply_mat_swap2. lia.
Qed.

(** ** Running the kernels *)
Lemma dkernels_becomes n ks w f : kcomputes_list pair_eqb (d_valid n) ks (d_raw w) (inside n f (d_raw w)) ->
  runs (dkernels n ks) w (done (fun _ w' => d_raw w' = inside n f (d_raw w) /\ d_herm w' = d_herm w)).
Proof.
  intros H. destruct (kcomputes_list_run _ _ _ _ _ H) as [H1 (s & r & H2)]. split.
  - intros o (scheds & Ho). specialize (H1 scheds). destruct (run_kernels _ _ _ _ _); [subst; cbn; auto|destruct Ho|destruct H1|destruct H1].
  - eexists. exists s. rewrite H2. reflexivity.
Qed.
Lemma inside_in n f m i j : i < 2 ^ n -> j < 2 ^ n -> inside n f m (i, j) = f (i, j).
Proof. intros Hi Hj. unfold inside, d_valid. cbn [fst snd]. apply N.ltb_lt in Hi, Hj. now rewrite Hi, Hj. Qed.
Lemma dm_update_object n g w : n < 32 -> gate_wf g -> gate_fits n g -> dm_object g = true ->
  becomes n (dm_update n g) w (sandwich (2 ^ n) (sem_mat g) (rho w)) (d_herm w).
Proof.
  intros Hn Hw Hf Ho. destruct (dm_gate_computes n g (d_raw w) Hn Hw Hf Ho) as (ks & Hp & Hk).
  unfold becomes, dm_update. rewrite Hp. cbn [hlift].
  apply (runs_bind_done (hret ks) (dkernels n) w (fun t w1 => t = ks /\ w1 = w)); [apply runs_ret; cbn; auto|].
  intros t w1 [-> ->]. eapply runs_weaken; [apply (dkernels_becomes n ks w _ Hk)|].
  intros [t w'|w'|]; cbn; auto. intros [E1 E2]. split; [|exact E2]. intros i j Hi Hj. unfold rho at 1. rewrite E1, inside_in by assumption.
  reflexivity.
Qed.
Lemma supported_object vf k g : make vf k = Ok g -> dm_object g = dm_supported k.
Proof.
  intros H. destruct k; cbn [make dm_supported] in *;
    try solve [inv_bind H; apply create_ok in H; destruct H as (? & ? & ? & _ & _ & _ & _ & ->); reflexivity
              |apply create_ok in H; destruct H as (? & ? & ? & _ & _ & _ & _ & ->); reflexivity].
  - now injection H as <-.
  - inv_bind H. inv_bind H. destruct v0 as [[t c] cv]. inv_bind H. inv_bind H. inv_bind H. now injection H as <-.
  - destruct (64 <=? _); [discriminate|]. inv_bind H. destruct (negb _); [discriminate|]. unfold make_permutation_impl in H.
    inv_bind H. destruct (64 <=? _); [discriminate|]. destruct (negb _); [discriminate|]. inv_bind H. now injection H as <-.
  - inv_bind H. inv_bind H. destruct v0 as [[t c] cv]. inv_bind H. now injection H as <-.
  - inv_bind H. inv_bind H. destruct v0 as [[t c] cv]. inv_bind H. now injection H as <-.
  - inv_bind H. destruct (64 <=? _); [discriminate|]. destruct (_ || _); [discriminate|].
    apply create_ok in H; destruct H as (? & ? & ? & _ & _ & _ & _ & ->). reflexivity.
  - inv_bind H. destruct (is_sorted _); [|destruct (_ || _); [discriminate|]];
      apply create_ok in H; destruct H as (? & ? & ? & _ & _ & _ & _ & ->); reflexivity.
Qed.
Lemma supported_typed k : dm_supported k = true -> call_typed k.
Proof. destruct k; cbn; try exact (fun _ => I); discriminate. Qed.
Lemma sem_mat_call vf k g n : dm_supported k = true -> make vf k = Ok g -> n < 64 -> Forall (fun q => q < n) (call_operands k) ->
  mat_eq (2 ^ n) (sem_mat g) (full_matrix k).
Proof.
  intros Hs H Hn HF. pose proof (make_means vf k g (supported_typed k Hs) H) as Hm. apply full_of_ext.
  intros psi x. apply (means_sem _ _ _ _ Hm). apply Forall_app in HF. destruct HF as [Ft _].
  pose proof (call_targets_len vf k g n (supported_typed k Hs) H Ft). lia.
Qed.
Lemma becomes_ext n p w M M' h : mat_eq (2 ^ n) M M' -> becomes n p w M h -> becomes n p w M' h.
Proof.
  intros E H. eapply runs_weaken; [exact H|]. intros [t w'|w'|]; cbn; auto. intros [A B]. split; [|exact B].
  eapply mat_eq_trans; eassumption.
Qed.
(** C33 *)
Lemma dm_update_call vf k g n w : dm_supported k = true -> make vf k = Ok g -> Forall (fun q => q < n) (call_operands k) -> n < 32 ->
  becomes n (dm_update n g) w (sandwich (2 ^ n) (full_matrix k) (rho w)) (d_herm w).
Proof.
  intros Hs H HF Hn. pose proof (make_means vf k g (supported_typed k Hs) H) as Hm.
  eapply becomes_ext; [|apply dm_update_object; [assumption|exact (means_wf _ _ _ _ Hm)|exact (means_fits _ _ _ _ _ Hm HF)|]].
  - apply sandwich_ext; [|apply mat_eq_refl]. apply (sem_mat_call vf); try assumption. lia.
  - rewrite (supported_object vf k g H). exact Hs.
Qed.
Lemma dm_update_unsupported vf k g n w : dm_supported k = false -> make vf k = Ok g -> refuses (dm_update n g) w.
Proof.
  intros Hs H. rewrite <- (supported_object vf k g H) in Hs. unfold refuses, dm_update.
  assert (E : dm_update_plan n g = Throw) by (destruct g; try discriminate Hs; reflexivity). rewrite E. cbn [hlift].
  split.
  - intros o (o1 & -> & Ho). exact Ho.
  - eexists. eexists. split; [reflexivity|reflexivity].
Qed.
Lemma dm_update_out_of_range vf k g n w : make vf k = Ok g -> call_typed k -> n < 64 -> ~ Forall (fun q => q < n) (call_operands k) ->
  refuses (dm_update n g) w.
Proof.
  intros H Hty Hn HF. pose proof (make_means vf k g Hty H) as Hm.
  assert (Hb : within_bounds n (g_base g) = false).
  { apply not_true_is_false. intros E. apply within_bounds_iff in E; [|assumption]. destruct E as [Et Ec]. apply HF. apply Forall_forall. intros q Hq.
    unfold call_operands in Hq. apply in_app_or in Hq.
    assert (Hlt : forall x, x < 2 ^ n -> N.testbit x q = true -> q < n).
    { intros x Hx Ht. destruct (N.lt_ge_cases q n); [assumption|]. rewrite (testbit_high x n q) in Ht by assumption. discriminate. }
    destruct Hq as [Hq|Hq]; [apply (means_t _ _ _ _ Hm) in Hq; exact (Hlt _ Et Hq)|apply (means_c _ _ _ _ Hm) in Hq; exact (Hlt _ Ec Hq)]. }
  assert (E : dm_update_plan n g = Throw).
  { destruct g; cbn [dm_update_plan]; cbn [g_base] in *; rewrite ?Hb; try reflexivity. exfalso.
    assert (X : within_bounds n (GBase 0 0 0) = true) by (apply within_bounds_iff; [assumption|]; split; apply pow2_pos).
    unfold g_base in Hb. congruence. }
  unfold refuses, dm_update. rewrite E. cbn [hlift]. split.
  - intros o (o1 & -> & Ho). exact Ho.
  - eexists. eexists. split; [reflexivity|reflexivity].
Qed.

(** ** Algebra of d x d matrices *)
Lemma mat_mul_assoc d A B M : mat_eq d (mat_mul d (mat_mul d A B) M) (mat_mul d A (mat_mul d B M)).
Proof.
  intros i j _ _. unfold mat_mul.
  transitivity (Csum d (fun k => Csum d (fun l => (A i l * B l k * M k j)%C))).
  - apply Csum_ext. intros k _. now rewrite <- Csum_mul_r.
  - rewrite Csum_swap. apply Csum_ext. intros l _. rewrite <- Csum_mul_l. apply Csum_ext. intros; ring.
Qed.
Lemma mat_mul_id_l d M : mat_eq d (mat_mul d mat_id M) M.
Proof.
  intros i j Hi Hj. unfold mat_mul, mat_id. rewrite (Csum_single d _ i); [rewrite N.eqb_refl; ring|assumption|].
  intros k _ Hk. apply not_eq_sym, N.eqb_neq in Hk. rewrite Hk. ring.
Qed.
Lemma mat_mul_id_r d M : mat_eq d (mat_mul d M mat_id) M.
Proof.
  intros i j Hi Hj. unfold mat_mul, mat_id. rewrite (Csum_single d _ j); [rewrite N.eqb_refl; ring|assumption|].
  intros k _ Hk. apply N.eqb_neq in Hk. rewrite Hk. ring.
Qed.
Lemma mat_adj_mul d A B : mat_eq d (mat_adj (mat_mul d A B)) (mat_mul d (mat_adj B) (mat_adj A)).
Proof.
  intros i j _ _. unfold mat_adj, mat_mul. rewrite Csum_conj. apply Csum_ext. intros k _. rewrite Cconj_mul. ring.
Qed.
Lemma mat_adj_adj M : mat_adj (mat_adj M) = M.
Proof. apply functional_extensionality; intros i. apply functional_extensionality; intros j. apply Cconj_invol. Qed.
Lemma mat_adj_ext d A B : mat_eq d A B -> mat_eq d (mat_adj A) (mat_adj B).
Proof. intros H i j Hi Hj. unfold mat_adj. now rewrite H. Qed.
Lemma trace_ext d A B : mat_eq d A B -> trace d A = trace d B.
Proof. intros H. apply Csum_ext. intros i Hi. now apply H. Qed.
Lemma trace_cyclic d A B : trace d (mat_mul d A B) = trace d (mat_mul d B A).
Proof. unfold trace, mat_mul. rewrite Csum_swap. apply Csum_ext. intros i _. apply Csum_ext. intros; ring. Qed.
Lemma sandwich_hermitian d U M : hermitian d M -> hermitian d (sandwich d U M).
Proof.
  intros H. unfold hermitian, sandwich in *. eapply mat_eq_trans; [apply mat_adj_mul|]. rewrite mat_adj_adj.
  eapply mat_eq_trans; [|apply mat_eq_sym, mat_mul_assoc]. apply mat_mul_ext; [apply mat_eq_refl|].
  eapply mat_eq_trans; [apply mat_adj_mul|]. apply mat_mul_ext; [exact H|apply mat_eq_refl].
Qed.
Lemma sandwich_trace d U M : mat_eq d (mat_mul d (mat_adj U) U) mat_id -> trace d (sandwich d U M) = trace d M.
Proof.
  intros H. unfold sandwich. rewrite trace_cyclic. apply trace_ext.
  eapply mat_eq_trans; [apply mat_eq_sym, mat_mul_assoc|]. eapply mat_eq_trans; [apply mat_mul_ext; [exact H|apply mat_eq_refl]|].
  apply mat_mul_id_l.
Qed.
Lemma sandwich_mul d U A B : mat_eq d (mat_mul d (mat_adj U) U) mat_id ->
  mat_eq d (mat_mul d (sandwich d U A) (sandwich d U B)) (sandwich d U (mat_mul d A B)).
Proof.
  intros H. unfold sandwich.
  (* (U A U+) (U B U+) = U A (U+ (U (B U+))) *)
  eapply mat_eq_trans; [apply mat_mul_assoc|].
  eapply mat_eq_trans; [apply mat_mul_ext; [apply mat_eq_refl|]|].
  { eapply mat_eq_trans; [apply mat_mul_ext; [apply mat_eq_refl|apply mat_mul_assoc]|].
    eapply mat_eq_trans; [apply mat_eq_sym, mat_mul_assoc|].
    eapply mat_eq_trans; [apply mat_mul_ext; [exact H|apply mat_eq_refl]|]. apply mat_mul_id_l. }
  eapply mat_eq_trans; [apply mat_eq_sym, mat_mul_assoc|]. apply mat_mul_ext; [|apply mat_eq_refl]. apply mat_mul_assoc.
Qed.
Lemma mat_vec_mul d A B phi i : mat_vec d (mat_mul d A B) phi i = mat_vec d A (mat_vec d B phi) i.
Proof.
  unfold mat_vec, mat_mul. transitivity (Csum d (fun j => Csum d (fun k => (A i k * B k j * phi j)%C))).
  - apply Csum_ext. intros j _. now rewrite <- Csum_mul_r.
  - rewrite Csum_swap. apply Csum_ext. intros k _. rewrite <- Csum_mul_l. apply Csum_ext. intros; ring.
Qed.
Lemma mat_vec_ext d A B phi psi i : mat_eq d A B -> (forall j, j < d -> phi j = psi j) -> i < d -> mat_vec d A phi i = mat_vec d B psi i.
Proof. intros H1 H2 Hi. apply Csum_ext. intros j Hj. now rewrite H1, H2. Qed.
Lemma inner_adj n U phi psi : inner n phi (mat_vec (2 ^ n) U psi) = inner n (mat_vec (2 ^ n) (mat_adj U) phi) psi.
Proof.
  unfold inner, mat_vec, mat_adj. transitivity (Csum (2 ^ n) (fun i => Csum (2 ^ n) (fun j => (Cconj (phi i) * U i j * psi j)%C))).
  - apply Csum_ext. intros i _. rewrite <- Csum_mul_l. apply Csum_ext. intros; ring.
  - rewrite Csum_swap. apply Csum_ext. intros j _. rewrite Csum_conj, <- Csum_mul_r. apply Csum_ext. intros i _.
    rewrite Cconj_mul, Cconj_invol. ring.
Qed.
Lemma sandwich_positive n U M : psd n M -> psd n (sandwich (2 ^ n) U M).
Proof.
  intros H phi. specialize (H (mat_vec (2 ^ n) (mat_adj U) phi)).
  assert (E : inner n phi (mat_vec (2 ^ n) (sandwich (2 ^ n) U M) phi) =
              inner n (mat_vec (2 ^ n) (mat_adj U) phi) (mat_vec (2 ^ n) M (mat_vec (2 ^ n) (mat_adj U) phi))).
  { rewrite <- inner_adj. apply Csum_ext. intros i Hi. f_equal. unfold sandwich. rewrite mat_vec_mul, mat_vec_mul. reflexivity. }
  now rewrite E.
Qed.
Lemma full_unitary n ts cs M : wf_ops n ts cs -> (forall phi psi, inner n (apply_mat ts cs M phi) (apply_mat ts cs M psi) = inner n phi psi) ->
  mat_eq (2 ^ n) (mat_mul (2 ^ n) (mat_adj (full_of ts cs M)) (full_of ts cs M)) mat_id.
Proof.
  intros Hw H i j Hi Hj. transitivity (inner n (basis i) (basis j)).
  - rewrite <- H. reflexivity.
  - unfold inner, mat_id. rewrite (Csum_single (2 ^ n) _ i); [|assumption|].
    + rewrite !basis_eq, N.eqb_refl, Cconj_1. destruct (i =? j); ring.
    + intros k _ Hk. rewrite basis_eq. apply N.eqb_neq in Hk. rewrite Hk, Cconj_0. ring.
Qed.
Lemma call_full_unitary vf k g n : dm_supported k = true -> make vf k = Ok g -> call_unitary k -> n < 64 -> Forall (fun q => q < n) (call_operands k) ->
  mat_eq (2 ^ n) (mat_mul (2 ^ n) (mat_adj (full_matrix k)) (full_matrix k)) mat_id.
Proof.
  intros Hs H Hu Hn HF. pose proof (sem_mat_call vf k g n Hs H Hn HF) as E.
  pose proof (make_means vf k g (supported_typed k Hs) H) as Hm. pose proof (means_wf _ _ _ _ Hm) as Hw. pose proof (means_fits _ _ _ _ _ Hm HF) as Hf.
  assert (Hg : gate_unitary g).
  { pose proof (make_unitary vf k g H Hu). destruct k; try discriminate Hs; assumption. }
  eapply mat_eq_trans; [apply mat_mul_ext; [apply mat_adj_ext|]; apply mat_eq_sym; exact E|].
  pose proof (gate_ops_wf n g Hw Hf) as Hops. apply full_unitary; [exact Hops|]. intros phi psi.
  eapply apply_mat_unitary_inner; [exact Hops|]. cbn [fst gate_ops]. rewrite bits_length. now apply (unitary_correct n g).
Qed.
