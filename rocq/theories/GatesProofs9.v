(** The gate properties in the form in which PropertiesGates.v states them. *)
From Verif Require Export GatesProofs8.
From Coq Require Import ZifyBool ZifyN ZifyNat Permutation Sorting.Sorted FunctionalExtensionality.

Lemma updating_call vf k g n B L psi : call_typed k -> make vf k = Ok g -> Forall (fun q => q < n) (call_operands k) -> sizes_ok n B L ->
  updating n B L g psi (apply_mat (call_targets k) (call_controls k) (call_matrix k) psi).
Proof. intros Hty H HF (Hn & HB & HL). now apply (call_correct vf k g). Qed.
Lemma updating_ext n B L g psi psi' phi : (forall a, a < B * 2 ^ n -> psi' a = phi a) -> updating n B L g psi psi' -> updating n B L g psi phi.
Proof. intros H (p & Hp & Hu). exists p. split; [assumption|]. eapply updates_to_ext; eassumption. Qed.
Lemma updating_result n B L g psi psi' r a : updating n B L g psi psi' -> result n B L g psi r -> a < B * 2 ^ n -> r a = psi' a.
Proof.
  intros (p & Hp & Hu) (p' & junk & scheds & Hp' & Hr) Ha. rewrite Hp in Hp'. injection Hp' as <-.
  exact (updates_to_run _ _ _ _ _ _ _ Hu Hr a Ha).
Qed.
Lemma updating_exists n B L g psi psi' : updating n B L g psi psi' -> exists r, result n B L g psi r.
Proof. intros (p & Hp & Hu). destruct (proj2 Hu (fun _ => C0)) as (scheds & r & Hr). exists r, p, (fun _ => C0), scheds. auto. Qed.

Definition updating_call' vf k g n B L psi (H : make vf k = Ok g) (Hty : call_typed k) := updating_call vf k g n B L psi Hty H.
Definition call_targets_NoDup' vf k g (H : make vf k = Ok g) (Hty : call_typed k) := call_targets_NoDup vf k g Hty H.
Definition make_sound' vf k g (H : make vf k = Ok g) (H1 : call_data k) (H2 : size_checked k) := make_sound vf k g H1 H2 H.
(** C03 *)
Lemma call_safe vf k g n B L psi : call_typed k -> make vf k = Ok g -> Forall (fun q => q < n) (call_operands k) -> sizes_ok n B L ->
  exists p, update_plan n (B * 2 ^ n) L g = Ok p /\
    (forall junk scheds, run_plan (B * 2 ^ n) p junk scheds psi <> DataRace /\ run_plan (B * 2 ^ n) p junk scheds psi <> OutOfBounds) /\
    (forall junk scheds junk' scheds' r r', run_plan (B * 2 ^ n) p junk scheds psi = Finished r ->
       run_plan (B * 2 ^ n) p junk' scheds' psi = Finished r' -> forall a, a < B * 2 ^ n -> r a = r' a) /\
    (forall junk, exists scheds r, run_plan (B * 2 ^ n) p junk scheds psi = Finished r).
Proof.
  intros Hty H HF Hs. destruct (updating_call vf k g n B L psi Hty H HF Hs) as (p & Hp & Hu). exists p. split; [assumption|].
  split; [|split; [|apply Hu]].
  - intros junk scheds. pose proof (proj1 Hu junk scheds) as E. destruct (run_plan _ _ _ _ _); split; intros X; try discriminate; exact E.
  - intros junk scheds junk' scheds' r r' Hr Hr' a Ha. rewrite (updates_to_run _ _ _ _ _ _ _ Hu Hr a Ha).
    symmetry. exact (updates_to_run _ _ _ _ _ _ _ Hu Hr' a Ha).
Qed.

(** C04 *)
Lemma apply_mat_one t cs M psi x : apply_mat [t] cs M psi x =
  if ctrl_ok cs x then (M (N.b2n (N.testbit x t)) 0 * psi (N.clearbit x t) + M (N.b2n (N.testbit x t)) 1 * psi (N.setbit x t))%C else psi x.
Proof.
  unfold apply_mat. destruct (ctrl_ok cs x); [|reflexivity]. change (2 ^ N.of_nat (length [t])) with 2. rewrite Csum_2.
  cbn [gather scatter]. replace (N.b2n (N.testbit x t) + 2 * 0) with (N.b2n (N.testbit x t)) by lia. reflexivity.
Qed.
Lemma one_target_gate vf k t cs vs g n B L psi : make vf (Call1 k t cs vs) = Ok g -> Forall (fun q => q < n) (t :: cs) -> sizes_ok n B L ->
  updating n B L g psi (fun x =>
    if ctrl_ok (with_values cs vs) x
    then (std1_textbook k (N.b2n (N.testbit x t)) 0 * psi (N.clearbit x t) + std1_textbook k (N.b2n (N.testbit x t)) 1 * psi (N.setbit x t))%C
    else psi x).
Proof.
  intros H HF Hs. eapply updating_ext; [|apply (updating_call' vf _ g n B L psi H I)]; [|clear -HF H|assumption].
  - intros a _. apply apply_mat_one.
  - unfold call_operands. cbn [call_targets call_controls app]. cbn [make] in H. inv_bind H. apply create_ok in H.
    destruct H as (t0 & c & cv & Ht & Hc & Hv & _). destruct (controls_meaning _ _ _ _ _ E Hc Hv) as (_ & _ & Hm & _). now rewrite Hm.
Qed.
Lemma controls_fst vf k g : make vf k = Ok g ->
  match k with
  | CallGlobalPhase _ cs vs | Call1 _ _ cs vs | CallSwap _ _ cs vs | CallEcr _ _ cs vs | CallPauli _ cs vs
  | CallPauliRotation _ _ cs vs | CallDense _ _ cs vs _ | CallSparse _ _ cs vs => map fst (with_values cs vs) = cs
  | _ => True
  end.
Proof.
  assert (Hok : forall cs vs0 vs, resize_and_check_control_values cs vs0 = Ok vs -> map fst (with_values cs vs0) = cs).
  { intros cs vs0 vs Hr. destruct (resize_cases cs vs0) as [(vs' & _ & Hl & E)|[E _]]; [|congruence].
    unfold with_values. rewrite <- E. apply map_fst_combine. rewrite map_length. lia. }
  intros H. destruct k; cbn [make] in *; try exact I; inv_bind H; eauto.
Qed.
Lemma operands_lt vf k g n : make vf k = Ok g ->
  match k with
  | CallGlobalPhase _ cs vs | Call1 _ _ cs vs | CallSwap _ _ cs vs | CallEcr _ _ cs vs | CallPauli _ cs vs
  | CallPauliRotation _ _ cs vs | CallDense _ _ cs vs _ | CallSparse _ _ cs vs =>
    Forall (fun q => q < n) (call_targets k ++ cs)
  | _ => Forall (fun q => q < n) (call_operands k)
  end -> Forall (fun q => q < n) (call_operands k).
Proof.
  intros H HF. pose proof (controls_fst vf k g H) as Hm. unfold call_operands in *.
  destruct k; cbn [call_controls] in *; try exact HF; now rewrite Hm.
Qed.
Lemma cx_gate vf c t g n B L psi : make vf (CallCX c t) = Ok g -> Forall (fun q => q < n) [t; c] -> sizes_ok n B L ->
  updating n B L g psi (fun x => psi (if N.testbit x c then N.lxor x (2 ^ t) else x)).
Proof.
  intros H HF Hs. eapply updating_ext; [|apply (updating_call' vf _ g n B L psi H I)]; [|exact HF|assumption].
  intros a _. cbn [call_targets call_controls call_matrix]. rewrite apply_mat_one. simpl ctrl_ok. rewrite andb_true_r.
  destruct (N.testbit a c); [|reflexivity]. simpl.
  assert (E : N.lxor a (2 ^ t) = if N.testbit a t then N.clearbit a t else N.setbit a t).
  { apply N.bits_inj. intros i. rewrite N.lxor_spec, pow2_tb. destruct (N.testbit a t) eqn:Et.
    - rewrite N.clearbit_eqb. destruct (N.eqb_spec i t) as [-> |Hne]; [rewrite N.eqb_refl, Et; reflexivity|].
      replace (t =? i) with false by lia. now destruct (N.testbit a i).
    - rewrite N.setbit_eqb. destruct (N.eqb_spec i t) as [-> |Hne]; [rewrite N.eqb_refl, Et; reflexivity|].
      replace (t =? i) with false by lia. now destruct (N.testbit a i). }
  rewrite E. destruct (N.testbit a t); simpl; unfold pauli1; simpl; ring.
Qed.
Lemma cz_gate vf c t g n B L psi : make vf (CallCZ c t) = Ok g -> Forall (fun q => q < n) [t; c] -> sizes_ok n B L ->
  updating n B L g psi (fun x => if N.testbit x c && N.testbit x t then (- psi x)%C else psi x).
Proof.
  intros H HF Hs. eapply updating_ext; [|apply (updating_call' vf _ g n B L psi H I)]; [|exact HF|assumption].
  intros a _. cbn [call_targets call_controls call_matrix]. rewrite apply_mat_one. simpl ctrl_ok. rewrite andb_true_r.
  destruct (N.testbit a c); [|reflexivity]. simpl. destruct (N.testbit a t) eqn:Et; simpl; unfold pauli1; simpl.
  - replace (N.setbit a t) with a by (apply N.bits_inj; intros i; rewrite N.setbit_eqb; destruct (N.eqb_spec t i); subst; [now rewrite Et|reflexivity]). ring.
  - replace (N.clearbit a t) with a by (apply N.bits_inj; intros i; rewrite N.clearbit_eqb; destruct (N.eqb_spec t i); subst; [now rewrite Et|simpl; now rewrite andb_true_r]). ring.
Qed.
Lemma ccx_gate vf c1 c2 t g n B L psi : make vf (CallCCX c1 c2 t) = Ok g -> Forall (fun q => q < n) [t; c1; c2] -> sizes_ok n B L ->
  updating n B L g psi (fun x => psi (if N.testbit x c1 && N.testbit x c2 then N.lxor x (2 ^ t) else x)).
Proof.
  intros H HF Hs. eapply updating_ext; [|apply (updating_call' vf _ g n B L psi H I)]; [|exact HF|assumption].
  intros a _. cbn [call_targets call_controls call_matrix]. rewrite apply_mat_one. simpl ctrl_ok. rewrite andb_true_r.
  replace (Bool.eqb (N.testbit a c1) true && Bool.eqb (N.testbit a c2) true) with (N.testbit a c1 && N.testbit a c2)
    by (destruct (N.testbit a c1), (N.testbit a c2); reflexivity).
  destruct (N.testbit a c1 && N.testbit a c2); [|reflexivity].
  assert (E : N.lxor a (2 ^ t) = if N.testbit a t then N.clearbit a t else N.setbit a t).
  { apply N.bits_inj. intros i. rewrite N.lxor_spec, pow2_tb. destruct (N.testbit a t) eqn:Et.
    - rewrite N.clearbit_eqb. destruct (N.eqb_spec i t) as [-> |Hne]; [rewrite N.eqb_refl, Et; reflexivity|].
      replace (t =? i) with false by lia. now destruct (N.testbit a i).
    - rewrite N.setbit_eqb. destruct (N.eqb_spec i t) as [-> |Hne]; [rewrite N.eqb_refl, Et; reflexivity|].
      replace (t =? i) with false by lia. now destruct (N.testbit a i). }
  rewrite E. destruct (N.testbit a t); simpl; unfold pauli1; simpl; ring.
Qed.

(** C05 *)
Lemma global_phase_gate vf ph cs vs g n B L psi : make vf (CallGlobalPhase ph cs vs) = Ok g -> Forall (fun q => q < n) cs -> sizes_ok n B L ->
  updating n B L g psi (fun x => if ctrl_ok (with_values cs vs) x then (Cexpi ph * psi x)%C else psi x).
Proof.
  intros H HF Hs. eapply updating_ext; [|apply (updating_call' vf _ g n B L psi H I)]; [| |assumption].
  - intros a _. cbn [call_targets call_controls call_matrix]. unfold apply_mat. destruct (ctrl_ok _ a); [|reflexivity].
    change (2 ^ N.of_nat (length (@nil N))) with 1. rewrite Csum_1. reflexivity.
  - now apply (operands_lt vf _ g n H).
Qed.
Lemma identity_gate vf g n B L psi : make vf CallI = Ok g -> sizes_ok n B L -> updating n B L g psi psi.
Proof.
  intros H Hs. eapply updating_ext; [|apply (updating_call' vf _ g n B L psi H I)]; [|constructor|assumption].
  intros a _. cbn [call_targets call_controls call_matrix]. unfold apply_mat. cbn [ctrl_ok forallb].
  change (2 ^ N.of_nat (length (@nil N))) with 1. rewrite Csum_1. simpl. ring.
Qed.

(** C06 *)
Lemma apply_swap a b cs psi x : a <> b ->
  apply_mat [a; b] cs swap_textbook psi x = if ctrl_ok cs x then psi (exchange x a b) else psi x.
Proof.
  intros Hne. unfold apply_mat. destruct (ctrl_ok cs x); [|reflexivity]. change (2 ^ N.of_nat (length [a; b])) with 4. rewrite Csum_4.
  cbn [gather scatter]. unfold exchange, swap_textbook.
  destruct (N.testbit x a), (N.testbit x b); simpl; ring.
Qed.
Lemma swap_gate_call vf a b cs vs g n B L psi : make vf (CallSwap a b cs vs) = Ok g -> Forall (fun q => q < n) (a :: b :: cs) -> sizes_ok n B L ->
  updating n B L g psi (fun x => if ctrl_ok (with_values cs vs) x then psi (exchange x a b) else psi x).
Proof.
  intros H HF Hs. pose proof (call_targets_NoDup' vf _ g H I) as Hnd. eapply updating_ext; [|apply (updating_call' vf _ g n B L psi H I)]; [| |assumption].
  - intros x _. apply apply_swap. cbn [call_targets] in Hnd. inversion Hnd as [|? ? Hi _]; subst. intros ->. apply Hi. now left.
  - now apply (operands_lt vf _ g n H).
Qed.
Lemma ecr_gate_call vf a b cs vs g n B L psi : make vf (CallEcr a b cs vs) = Ok g -> Forall (fun q => q < n) (a :: b :: cs) -> sizes_ok n B L ->
  updating n B L g psi (apply_mat [a; b] (with_values cs vs) ecr_textbook psi).
Proof.
  intros H HF Hs. apply (updating_call' vf _ g n B L psi H I); [|assumption]. now apply (operands_lt vf _ g n H).
Qed.

(** C07-C10 *)
Lemma dense_gate vf ts M cs vs u g n B L psi : make vf (CallDense ts M cs vs u) = Ok g -> Forall (fun q => q < n) (ts ++ cs) -> sizes_ok n B L ->
  updating n B L g psi (apply_mat ts (with_values cs vs) (m_at M) psi).
Proof.
  intros H HF Hs. apply (updating_call' vf _ g n B L psi H I); [|assumption]. now apply (operands_lt vf _ g n H).
Qed.
Lemma lanes_agree vf k g n B L L' psi r r' a : call_typed k -> make vf k = Ok g -> Forall (fun q => q < n) (call_operands k) ->
  sizes_ok n B L -> sizes_ok n B L' -> result n B L g psi r -> result n B L' g psi r' -> a < B * 2 ^ n -> r a = r' a.
Proof.
  intros Hty H HF Hs Hs' Hr Hr' Ha.
  rewrite (updating_result _ _ _ _ _ _ _ _ (updating_call vf k g n B L psi Hty H HF Hs) Hr Ha).
  symmetry. exact (updating_result _ _ _ _ _ _ _ _ (updating_call vf k g n B L' psi Hty H HF Hs') Hr' Ha).
Qed.
Lemma sparse_gate vf ts Sp cs vs g n B L psi : csr_ok Sp -> csr_rows Sp = 2 ^ N.of_nat (length ts) ->
  make vf (CallSparse ts Sp cs vs) = Ok g -> Forall (fun q => q < n) (ts ++ cs) -> sizes_ok n B L ->
  updating n B L g psi (apply_mat ts (with_values cs vs) (csr_sum Sp) psi).
Proof.
  intros H1 H2 H HF Hs. apply (updating_call' vf _ g n B L psi H (conj H1 H2)); [|assumption]. now apply (operands_lt vf _ g n H).
Qed.
Lemma sparse_dense vf vf' ts M Sp cs vs u g g' n B L L' psi r r' a :
  csr_ok Sp -> csr_rows Sp = 2 ^ N.of_nat (length ts) -> mat_eq (2 ^ N.of_nat (length ts)) (csr_sum Sp) (m_at M) ->
  make vf (CallDense ts M cs vs u) = Ok g -> make vf' (CallSparse ts Sp cs vs) = Ok g' ->
  Forall (fun q => q < n) (ts ++ cs) -> sizes_ok n B L -> sizes_ok n B L' ->
  result n B L g psi r -> result n B L' g' psi r' -> a < B * 2 ^ n -> r a = r' a.
Proof.
  intros H1 H2 HM Hd Hsp HF Hs Hs' Hr Hr' Ha.
  rewrite (updating_result _ _ _ _ _ _ _ _ (dense_gate _ _ _ _ _ _ _ _ _ _ psi Hd HF Hs) Hr Ha).
  rewrite (updating_result _ _ _ _ _ _ _ _ (sparse_gate _ _ _ _ _ _ _ _ _ psi H1 H2 Hsp HF Hs') Hr' Ha).
  symmetry. now apply apply_mat_ext_mat.
Qed.

(** C11 *)
Lemma permutation_gate_call vf dst g n B L psi r : make vf (CallPermutation dst) = Ok g -> N.of_nat (length dst) <= n -> sizes_ok n B L ->
  result n B L g psi r -> forall x y, x < B * 2 ^ n ->
    (forall i, i < N.of_nat (length dst) -> N.testbit y (nth (N.to_nat i) dst 0) = N.testbit x i) ->
    (forall i, N.of_nat (length dst) <= i -> N.testbit y i = N.testbit x i) -> r y = psi x.
Proof.
  intros H Hl Hs Hr x y Hx Hy1 Hy2.
  assert (HF : Forall (fun q => q < n) (call_operands (CallPermutation dst))).
  { unfold call_operands. cbn [call_targets call_controls map app]. rewrite app_nil_r. apply Forall_forall. intros q Hq. apply in_seqN in Hq. lia. }
  assert (Hyl : y < B * 2 ^ n).
  { assert (E : N.shiftr y n = N.shiftr x n).
    { apply N.bits_inj. intros i. rewrite !N.shiftr_spec'. apply Hy2. lia. }
    rewrite !N.shiftr_div_pow2 in E. pose proof (pow2_pos n) as Hp.
    assert (Hxb : x / 2 ^ n < B) by (apply N.div_lt_upper_bound; lia).
    rewrite <- E in Hxb. pose proof (N.mul_succ_div_gt y (2 ^ n) ltac:(lia)). nia. }
  rewrite (updating_result _ _ _ _ _ _ _ _ (updating_call' vf _ g n B L psi H I HF Hs) Hr Hyl).
  pose proof (make_sound' vf _ g H I I) as (Hlen & HD & HFd). cbn [call_targets call_controls call_matrix].
  unfold apply_mat. cbn [ctrl_ok forallb]. rewrite length_seqN, N2Nat.id. set (k := N.of_nat (length dst)) in *.
  assert (Hg : forall z, gather (seqN k) z < 2 ^ k).
  { intros z. rewrite gather_seqN. apply N.mod_lt. pose proof (pow2_pos k). lia. }
  rewrite (Csum_single _ _ (gather (seqN k) x)); [|apply Hg|].
  - unfold permutation_textbook. fold k. replace (forallb _ _) with true.
    + replace (scatter (seqN k) (gather (seqN k) x) y) with x; [ring|].
      transitivity (scatter (seqN k) (gather (seqN k) x) x); [symmetry; apply scatter_gather, NoDup_seqN|].
      apply scatter_ext; [apply NoDup_seqN|]. intros i Hi. symmetry. apply Hy2. rewrite in_seqN in Hi. lia.
    + symmetry. apply forallb_forall. intros [s d] Hsd. apply in_combine_seqN in Hsd. destruct Hsd as [Hs1 ->]. cbn [fst snd].
      rewrite !gather_seqN. change (nth (N.to_nat s) dst 0) with (dst_at dst s).
      rewrite !N.mod_pow2_bits_low; [|assumption|now apply dst_at_lt].
      unfold dst_at. rewrite Hy1 by assumption. apply Bool.eqb_reflx.
  - intros j Hj Hne. unfold permutation_textbook. fold k. destruct (forallb _ _) eqn:E; [|ring]. exfalso. apply Hne.
    rewrite forallb_forall in E. apply N.bits_inj. intros i. destruct (N.lt_ge_cases i k) as [Hi|Hi].
    + specialize (E (i, dst_at dst i)). cbn [fst snd] in E. assert (E1 := Bool.eqb_prop _ _ (E ltac:(apply in_combine_seqN; auto))).
      rewrite !gather_seqN in *. rewrite N.mod_pow2_bits_low in E1 by (now apply dst_at_lt). rewrite N.mod_pow2_bits_low by assumption.
      unfold dst_at in E1. rewrite Hy1 in E1 by assumption. congruence.
    + rewrite (testbit_high j k i Hj Hi). symmetry. eapply testbit_high; [apply Hg|assumption].
Qed.

(** C12, C13 *)
Lemma pauli_gate_call vf p cs vs g n B L psi : p_bf p < 2 ^ 64 -> p_pf p < 2 ^ 64 -> make vf (CallPauli p cs vs) = Ok g ->
  Forall (fun q => q < n) (bits (N.lor (p_bf p) (p_pf p)) ++ cs) -> sizes_ok n B L ->
  updating n B L g psi (apply_mat (bits (N.lor (p_bf p) (p_pf p))) (with_values cs vs)
    (fun i j => (p_coef p * tensor (map (pauli_id_of (p_bf p) (p_pf p)) (bits (N.lor (p_bf p) (p_pf p)))) i j)%C) psi).
Proof.
  intros H1 H2 H HF Hs. apply (updating_call' vf _ g n B L psi H (conj H1 H2)); [|assumption]. now apply (operands_lt vf _ g n H).
Qed.
Lemma pauli_rotation_gate_call vf p angle cs vs g n B L psi : p_bf p < 2 ^ 64 -> p_pf p < 2 ^ 64 -> make vf (CallPauliRotation p angle cs vs) = Ok g ->
  Forall (fun q => q < n) (bits (N.lor (p_bf p) (p_pf p)) ++ cs) -> sizes_ok n B L ->
  updating n B L g psi (fun x =>
    if ctrl_ok (with_values cs vs) x
    then (Ccos (Cscale (angle / 2)%R (p_coef p)) * psi x
          - Ci * Csin (Cscale (angle / 2)%R (p_coef p))
            * apply_mat (bits (N.lor (p_bf p) (p_pf p))) [] (tensor (map (pauli_id_of (p_bf p) (p_pf p)) (bits (N.lor (p_bf p) (p_pf p))))) psi x)%C
    else psi x).
Proof.
  intros H1 H2 H HF Hs. eapply updating_ext; [|apply (updating_call' vf _ g n B L psi H (conj H1 H2)); [|assumption]; now apply (operands_lt vf _ g n H)].
  intros a _. cbn [call_targets call_controls call_matrix]. unfold apply_mat. destruct (ctrl_ok _ a); [|reflexivity]. cbn [ctrl_ok forallb].
  set (ts := bits _). set (h := Cscale _ _). unfold pauli_rotation_textbook. fold (pauli_textbook (p_bf p) (p_pf p) ts). set (P := pauli_textbook _ _ _).
  transitivity (Ccos h * apply_mat ts [] mat_id psi a - Ci * Csin h * Csum (2 ^ N.of_nat (length ts)) (fun j => (P (gather ts a) j * psi (scatter ts j a))%C))%C.
  - unfold apply_mat. cbn [ctrl_ok forallb]. rewrite <- !Csum_mul_l.
    transitivity (Csum (2 ^ N.of_nat (length ts)) (fun i => (Ccos h * (mat_id (gather ts a) i * psi (scatter ts i a)) + (- C1) * (Ci * Csin h * (P (gather ts a) i * psi (scatter ts i a))))%C)).
    + apply Csum_ext. intros j _. ring.
    + rewrite Csum_add. rewrite (Csum_mul_l _ (- C1)%C). ring.
  - rewrite apply_mat_id by apply bits_NoDup. reflexivity.
Qed.

(** C22 *)
Lemma ctrls_combine c cv : ctrls c cv = combine (bits c) (map (fun q => N.testbit cv q) (bits c)).
Proof. unfold ctrls. induction (bits c); simpl; congruence. Qed.
Lemma gate_lists g : gate_wf g -> gate_target_list g = bits (g_t (g_base g)) /\
  combine (gate_control_list g) (map (fun v => v =? 1) (gate_control_values g)) = ctrls (g_c (g_base g)) (g_cv (g_base g)).
Proof.
  intros [(Hd & Hcv & Ht & Hc) _]. unfold gate_target_list, gate_control_list, gate_control_values.
  rewrite !mask_to_vector_bits, mask_to_values_bits by assumption. split; [reflexivity|]. rewrite ctrls_combine. f_equal.
  rewrite map_map. apply map_ext. intros q. now destruct (N.testbit _ q).
Qed.
Lemma matrix_size n g : n < 64 -> gate_wf g -> gate_fits n g ->
  m_rows (get_matrix g) = 2 ^ popcount (g_t (g_base g)) /\ m_cols (get_matrix g) = 2 ^ popcount (g_t (g_base g)).
Proof.
  intros Hn Hw Hf. pose proof (fits_popcount n g Hf) as Hpc. destruct Hw as [Hb Hw].
  assert (Hp : forall p, g_t (g_base g) = N.lor (p_bf p) (p_pf p) -> N.of_nat (length (pauli_target_list p)) = popcount (g_t (g_base g))).
  { intros p Hp. destruct Hb as (_ & _ & Ht & _). with_strategy transparent [pauli_target_list] unfold pauli_target_list.
    rewrite mask_to_vector_bits by (rewrite <- Hp; assumption). rewrite bits_length. now rewrite Hp. }
  destruct g as [|b ph|k b|b|b pc pt|b dst s|b p|b p a|b M u|b Sp]; cbn [g_base get_matrix m_rows m_cols] in *.
  - split; reflexivity.
  - rewrite Hw. split; reflexivity.
  - destruct Hw as [q ->]. rewrite popcount_pow2. split; reflexivity.
  - destruct Hw as (p & q & Hpq & ->). rewrite <- bits_length, bits_two by assumption. split; reflexivity.
  - destruct Hw as (p & q & Hpq & -> & -> & ->). rewrite <- bits_length. destruct (N.lt_ge_cases p q).
    + rewrite bits_two by assumption. split; reflexivity.
    + rewrite N.lor_comm, bits_two by lia. split; reflexivity.
  - destruct Hw as (HP & Hl & -> & ->). cbn [g_t]. rewrite popcount_ones, shl64_one by lia. split; reflexivity.
  - rewrite Hp by assumption. split; reflexivity.
  - rewrite Hp by assumption. split; reflexivity.
  - exact Hw.
  - destruct Hw as [-> _]. split; reflexivity.
Qed.
Lemma matrix_update vf k g n B L psi : call_typed k -> make vf k = Ok g -> Forall (fun q => q < n) (call_operands k) -> sizes_ok n B L ->
  m_rows (get_matrix g) = 2 ^ N.of_nat (length (gate_target_list g)) /\
  m_cols (get_matrix g) = 2 ^ N.of_nat (length (gate_target_list g)) /\
  updating n B L g psi (apply_mat (gate_target_list g)
    (combine (gate_control_list g) (map (fun v => v =? 1) (gate_control_values g))) (m_at (get_matrix g)) psi).
Proof.
  intros Hty H HF (Hn & HB & HL). pose proof (make_means vf k g Hty H) as Hm. pose proof (means_wf _ _ _ _ Hm) as Hw.
  pose proof (means_fits _ _ _ _ _ Hm HF) as Hf. destruct (gate_lists g Hw) as [-> ->]. rewrite bits_length.
  destruct (matrix_size n g Hn Hw Hf) as [-> ->]. split; [reflexivity|]. split; [reflexivity|].
  exact (update_correct n B L Hn HB HL g psi Hw Hf).
Qed.
Lemma NoDup_app_r {T} (l l' : list T) : NoDup (l ++ l') -> NoDup l'.
Proof. induction l as [|x l IH]; simpl; intros H; [assumption|]. inversion H; auto. Qed.
Lemma reported_operands vf k g : call_typed k -> make vf k = Ok g ->
  Permutation (gate_target_list g) (call_targets k) /\ StronglySorted N.lt (gate_target_list g) /\
  Permutation (combine (gate_control_list g) (map (fun v => v =? 1) (gate_control_values g))) (call_controls k).
Proof.
  intros Hty H. pose proof (make_means vf k g Hty H) as Hm. pose proof (means_wf _ _ _ _ Hm) as Hw.
  destruct (gate_lists g Hw) as [-> ->]. split; [|split; [apply bits_incr|]].
  - apply NoDup_Permutation; [apply bits_NoDup|eapply call_targets_NoDup; eassumption|]. intros i. rewrite in_bits. apply (means_t _ _ _ _ Hm).
  - set (n := N.of_nat (length (call_operands k)) + fold_right N.max 0 (call_operands k) + 1).
    assert (HF : Forall (fun q => q < n) (call_operands k)).
    { apply Forall_forall. intros q Hq. assert (q <= fold_right N.max 0 (call_operands k)).
      { clear -Hq. induction (call_operands k) as [|x l IH]; [destruct Hq|]. simpl. destruct Hq as [-> |Hq]; [lia|]. specialize (IH Hq). lia. }
      unfold n. lia. }
    pose proof (call_wf_ops vf k g n Hty H HF) as [Hnd _].
    apply NoDup_Permutation.
    + unfold ctrls. apply NoDup_map_inj; [|apply bits_NoDup]. intros x y _ _ E. congruence.
    + apply NoDup_map_inv with (f := fst). apply (NoDup_app_r (call_targets k)). exact Hnd.
    + apply (means_cv _ _ _ _ Hm).
Qed.
Lemma dense_target_order vf ts M cs vs u g n B L psi r x : make vf (CallDense ts M cs vs u) = Ok g ->
  Forall (fun q => q < n) (ts ++ cs) -> sizes_ok n B L -> result n B L g psi r -> x < B * 2 ^ n -> ctrl_ok (with_values cs vs) x = true ->
  r x = Csum (2 ^ N.of_nat (length ts)) (fun j => (m_at M (gather ts x) j * psi (scatter ts j x))%C) /\
  (forall i t, nth_error ts i = Some t -> N.testbit (gather ts x) (N.of_nat i) = N.testbit x t) /\
  (forall j i t, nth_error ts i = Some t -> N.testbit (scatter ts j x) t = N.testbit j (N.of_nat i)) /\
  (forall j q, ~ In q ts -> N.testbit (scatter ts j x) q = N.testbit x q).
Proof.
  intros H HF Hs Hr Hx Hc. pose proof (call_targets_NoDup' vf _ g H I) as Hnd. cbn [call_targets] in Hnd.
  split; [|split; [|split]].
  - rewrite (updating_result _ _ _ _ _ _ _ _ (dense_gate _ _ _ _ _ _ _ _ _ _ psi H HF Hs) Hr Hx). unfold apply_mat. now rewrite Hc.
  - intros i t E. now rewrite gather_tb, E.
  - intros j i t E. now apply scatter_in.
  - intros j q Hq. now apply scatter_out.
Qed.
Lemma update_correct' n B L g psi : gate_wf g -> gate_fits n g -> sizes_ok n B L -> updating n B L g psi (gate_sem g psi).
Proof. intros Hw Hf (Hn & HB & HL). exact (update_correct n B L Hn HB HL g psi Hw Hf). Qed.
Lemma h_example_wf : gate_wf (EStd GH (GBase 8 16 16)) /\ gate_fits 6 (EStd GH (GBase 8 16 16)).
Proof.
  split; [|split; reflexivity]. split.
  - split; [reflexivity|]. split; [reflexivity|]. split; reflexivity.
  - exists 3. reflexivity.
Qed.
Lemma sizes_6 B L : (B = 3 \/ B = 1) -> (L = 0 \/ L = 8) -> sizes_ok 6 B L.
Proof.
  intros HB HL. split; [reflexivity|]. split; [destruct HB; subst; discriminate|].
  destruct HL; subst; [left; reflexivity|right; exists 3; split; reflexivity].
Qed.
Lemma lanes_example : sizes_ok 6 3 0 /\ sizes_ok 6 3 8 /\
  forall psi, exists r r', result 6 3 0 (EStd GH (GBase 8 16 16)) psi r /\ result 6 3 8 (EStd GH (GBase 8 16 16)) psi r'.
Proof.
  split; [apply sizes_6; auto|]. split; [apply sizes_6; auto|]. intros psi. destruct h_example_wf as [Hw Hf].
  destruct (updating_exists _ _ _ _ _ _ (update_correct' 6 3 0 _ psi Hw Hf (sizes_6 3 0 (or_introl eq_refl) (or_introl eq_refl)))) as [r Hr].
  destruct (updating_exists _ _ _ _ _ _ (update_correct' 6 3 8 _ psi Hw Hf (sizes_6 3 8 (or_introl eq_refl) (or_intror eq_refl)))) as [r' Hr'].
  eauto.
Qed.
Lemma batched_example : sizes_ok 6 3 0 /\ sizes_ok 6 1 8 /\
  forall psi, exists r r', result 6 3 0 (EStd GH (GBase 8 16 16)) psi r /\ result 6 1 8 (EStd GH (GBase 8 16 16)) (batch 6 2 psi) r'.
Proof.
  split; [apply sizes_6; auto|]. split; [apply sizes_6; auto|]. intros psi. destruct h_example_wf as [Hw Hf].
  destruct (updating_exists _ _ _ _ _ _ (update_correct' 6 3 0 _ psi Hw Hf (sizes_6 3 0 (or_introl eq_refl) (or_introl eq_refl)))) as [r Hr].
  destruct (updating_exists _ _ _ _ _ _ (update_correct' 6 1 8 _ (batch 6 2 psi) Hw Hf (sizes_6 1 8 (or_intror eq_refl) (or_intror eq_refl)))) as [r' Hr'].
  eauto.
Qed.
Lemma sparse_example : let Sp := Csr 4 [0; 2; 2; 3; 4] [0; 3; 1; 2] [C1; Ci; C1; C1] in
  csr_ok Sp /\ (exists g, make false (CallSparse [3; 1] Sp [0] []) = Ok g) /\
  csr_sum Sp 0 3 = Ci /\ csr_sum Sp 1 1 = C0 /\ csr_sum Sp 2 1 = C1.
Proof.
  intros Sp. split; [|split].
  - intros r Hr. assert (r = 0 \/ r = 1 \/ r = 2 \/ r = 3) as [-> |[-> |[-> | ->]]] by (simpl in Hr; lia);
      vm_compute; (split; [repeat constructor; simpl; intuition discriminate|repeat constructor]).
  - destruct (make_complete false (CallSparse [3; 1] Sp [0] []) I) as [g Hg]; [|eauto].
    split; [|split; [simpl; lia|reflexivity]]. split; [|split; [|split]].
    + repeat constructor; simpl; intuition discriminate.
    + repeat constructor.
    + left. reflexivity.
    + constructor.
  - unfold csr_sum.
    assert (E0 : csr_entries Sp 0 = [(0, C1); (3, Ci)]) by reflexivity.
    assert (E1 : csr_entries Sp 1 = []) by reflexivity.
    assert (E2 : csr_entries Sp 2 = [(1, C1)]) by reflexivity.
    rewrite E0, E1, E2. cbn. repeat split; try reflexivity; c_eq; ring.
Qed.
Lemma permutation_operands n dst : N.of_nat (length dst) <= n -> Forall (fun q => q < n) (call_operands (CallPermutation dst)).
Proof.
  intros Hl. unfold call_operands. cbn [call_targets call_controls map app]. rewrite app_nil_r. apply Forall_forall. intros q Hq. apply in_seqN in Hq. lia.
Qed.
Lemma permutation_runs vf dst g n B L psi : make vf (CallPermutation dst) = Ok g -> N.of_nat (length dst) <= n -> sizes_ok n B L ->
  updating n B L g psi (apply_mat (seqN (N.of_nat (length dst))) [] (permutation_textbook dst) psi).
Proof. intros H Hl Hs. apply (updating_call' vf _ g n B L psi H I); [now apply permutation_operands|assumption]. Qed.
Lemma is_perm_iff dst : NoDup dst /\ Forall (fun q => q < N.of_nat (length dst)) dst <-> Permutation dst (seqN (N.of_nat (length dst))).
Proof.
  split.
  - intros [HD HF]. apply NoDup_Permutation_bis; [assumption|rewrite length_seqN; lia|].
    intros q Hq. apply in_seqN. rewrite Forall_forall in HF. auto.
  - intros HP. split; [eapply Permutation_NoDup; [symmetry; exact HP|apply NoDup_seqN]|].
    apply Forall_forall. intros q Hq. apply (Permutation_in _ HP) in Hq. now apply in_seqN in Hq.
Qed.
Lemma permutation_accepted vf dst :
  ((exists g, make vf (CallPermutation dst) = Ok g) <-> (length dst < 64)%nat /\ Permutation dst (seqN (N.of_nat (length dst)))) /\
  (make vf (CallPermutation dst) = Throw <-> ~ ((length dst < 64)%nat /\ Permutation dst (seqN (N.of_nat (length dst))))).
Proof.
  assert (H1 : (exists g, make vf (CallPermutation dst) = Ok g) <-> (length dst < 64)%nat /\ Permutation dst (seqN (N.of_nat (length dst)))).
  { rewrite <- is_perm_iff. split.
    - intros [g Hg]. exact (make_sound' vf _ g Hg I I).
    - intros H. exact (make_complete vf (CallPermutation dst) I H). }
  split; [exact H1|]. rewrite <- H1. pose proof (make_total vf (CallPermutation dst) I I I) as Ht. split.
  - intros E [g Hg]. congruence.
  - intros Hn. destruct (make vf (CallPermutation dst)) eqn:E; [|reflexivity|].
    + exfalso. apply Hn. eauto.
    + exfalso. apply Ht; [|reflexivity]. unfold order_ok. simpl. right. constructor.
Qed.
Lemma inverse_restores vf k g g' n B L psi : call_typed k -> make vf k = Ok g -> get_inverse g = Ok g' -> call_invertible k ->
  Forall (fun q => q < n) (call_operands k) -> sizes_ok n B L ->
  (exists phi, updating n B L g psi phi) /\
  (forall r, result n B L g psi r -> updating n B L g' r psi) /\
  (exists phi, updating n B L g' psi phi) /\
  (forall r, result n B L g' psi r -> updating n B L g r psi).
Proof.
  intros Hty H Hg Hi HF Hs. pose proof Hs as (Hn & HB & HL).
  destruct (call_inverse vf k g g' n B L psi Hty H Hg Hi HF Hn HB HL) as (p & p' & Hp & Hp' & _ & H2 & _ & H4).
  pose proof (make_means vf k g Hty H) as Hm. pose proof (means_wf _ _ _ _ Hm) as Hw. pose proof (means_fits _ _ _ _ _ Hm HF) as Hf.
  destruct (inverse_correct n g g' Hn Hw Hf Hg (make_inverse_ok vf k g H Hi)) as (Hw' & Hb & _).
  assert (Hf' : gate_fits n g') by (unfold gate_fits; rewrite Hb; exact Hf).
  split; [|split; [|split]].
  - eexists. exact (update_correct' n B L g psi Hw Hf Hs).
  - intros r (q & junk & scheds & Hq & Hr). rewrite Hp in Hq. injection Hq as <-. exists p'. split; [assumption|]. eapply H2; eassumption.
  - eexists. exact (update_correct' n B L g' psi Hw' Hf' Hs).
  - intros r (q & junk & scheds & Hq & Hr). rewrite Hp' in Hq. injection Hq as <-. exists p. split; [assumption|]. eapply H4; eassumption.
Qed.
Lemma inverse_example : exists g g', make false (Call1 (GU2 1 2) 1 [0] []) = Ok g /\ get_inverse g = Ok g' /\ g' <> g.
Proof.
  exists (EStd (GU2 1 2) (GBase 2 1 1)), (EStd (GU2 (- (2) - PI) (- (1) + PI)) (GBase 2 1 1)). split; [reflexivity|]. split; [reflexivity|].
  intros E. injection E as E1 E2. pose proof PI_RGT_0. lra.
Qed.
Lemma norm_preserved vf k g n B L psi : call_typed k -> make vf k = Ok g -> call_unitary k ->
  Forall (fun q => q < n) (call_operands k) -> sizes_ok n B L ->
  (exists phi, updating n B L g psi phi) /\
  forall r b, result n B L g psi r -> b < B -> norm2 n (batch n b r) = norm2 n (batch n b psi).
Proof.
  intros Hty H Hu HF Hs. split; [eexists; eapply updating_call; eassumption|]. destruct Hs as (Hn & HB & HL).
  destruct (call_norm vf k g n B L psi Hty H Hu HF Hn HB HL) as (p & Hp & _ & Hnorm).
  intros r b (q & junk & scheds & Hq & Hr) Hb. rewrite Hp in Hq. injection Hq as <-. eapply Hnorm; eassumption.
Qed.
Lemma norm_example : call_unitary (CallPauli (Pauli Ci 5 3) [7] []) /\ call_unitary (Call1 (GU3 1 2 3) 0 [1] []) /\
  exists g, make false (CallPauli (Pauli Ci 5 3) [7] []) = Ok g.
Proof. split; [cbn; c_eq; lra|]. split; [exact I|]. eexists. vm_compute. reflexivity. Qed.
Lemma batched_gate vf k g n B L L' psi r b r' : call_typed k -> make vf k = Ok g ->
  Forall (fun q => q < n) (call_operands k) -> sizes_ok n B L -> sizes_ok n 1 L' -> b < B ->
  result n B L g psi r -> result n 1 L' g (batch n b psi) r' -> forall i, i < 2 ^ n -> batch n b r i = r' i.
Proof.
  intros Hty H HF Hs Hs' Hb Hr Hr' i Hi.
  rewrite (updating_result _ _ _ _ _ _ _ i (updating_call vf k g n 1 L' (batch n b psi) Hty H HF Hs') Hr') by lia.
  unfold batch at 1. rewrite (updating_result _ _ _ _ _ _ _ (b * 2 ^ n + i) (updating_call vf k g n B L psi Hty H HF Hs) Hr) by nia.
  change (apply_mat (call_targets k) (call_controls k) (call_matrix k) psi (b * 2 ^ n + i))
    with (batch n b (apply_mat (call_targets k) (call_controls k) (call_matrix k) psi) i).
  apply apply_mat_batch; [exact (call_targets_NoDup vf k g Hty H)|exact HF|assumption].
Qed.
Lemma sizes_1 B : B = 1 \/ B = 2 -> sizes_ok 1 B 0.
Proof. intros [-> | ->]; (split; [reflexivity|]; split; [discriminate|left; reflexivity]). Qed.
Lemma pauli_inverse_wrong : exists k g g' psi r r', call_typed k /\ make false k = Ok g /\ get_inverse g = Ok g' /\
  Forall (fun q => q < 1) (call_operands k) /\ result 1 1 0 g psi r /\ result 1 1 0 g' r r' /\ r' 0 <> psi 0.
Proof.
  set (k := CallPauli (Pauli (RtoC 2) 1 0) [] []).
  assert (Hty : call_typed k) by (split; reflexivity).
  assert (HF : Forall (fun q => q < 1) (call_operands k)) by (unfold call_operands; vm_compute; repeat constructor).
  assert (Hm : make false k = Ok (EPauli (GBase 1 0 0) (Pauli (RtoC 2) 1 0))) by (vm_compute; reflexivity).
  assert (Hs := sizes_1 1 (or_introl eq_refl)).
  pose proof (fun psi => updating_call false k _ 1 1 0 psi Hty Hm HF Hs) as Hu.
  exists k, (EPauli (GBase 1 0 0) (Pauli (RtoC 2) 1 0)), (EPauli (GBase 1 0 0) (Pauli (RtoC 2) 1 0)), (fun _ => C1).
  destruct (updating_exists _ _ _ _ _ _ (Hu (fun _ => C1))) as [r Hr]. destruct (updating_exists _ _ _ _ _ _ (Hu r)) as [r' Hr'].
  exists r, r'. split; [assumption|]. split; [assumption|]. split; [reflexivity|]. split; [assumption|]. split; [assumption|]. split; [assumption|].
  assert (E : forall psi x, apply_mat (call_targets k) (call_controls k) (call_matrix k) psi x = (RtoC 2 * psi (N.lxor x 1))%C).
  { intros psi x. unfold k. cbn [call_targets call_controls call_matrix p_bf p_pf p_coef]. unfold pauli_textbook.
    rewrite (apply_mat_pauli _ _ 1 0 (RtoC 2) psi x); [|apply covers_bits]. cbn [with_values length repeat map combine ctrl_ok forallb].
    assert (Ep : pauli_phase 1 0 x = C1).
    { unfold pauli_phase. rewrite !N.land_0_r. unfold pauli_sign, mi_pow. cbn. c_eq; ring. }
    rewrite Ep. ring. }
  rewrite (updating_result _ _ _ _ _ _ _ 0 (Hu r) Hr') by reflexivity. rewrite E. change (N.lxor 0 1) with 1.
  rewrite (updating_result _ _ _ _ _ _ _ 1 (Hu (fun _ => C1)) Hr) by reflexivity. rewrite E.
  intros X. apply (f_equal fst) in X. simpl in X. lra.
Qed.
Lemma sparse_size_unchecked : exists ts Sp g p junk scheds, csr_ok Sp /\ csr_rows Sp <> 2 ^ N.of_nat (length ts) /\
  make false (CallSparse ts Sp [] []) = Ok g /\ update_plan 1 2 0 g = Ok p /\
  run_plan 2 p junk scheds (fun _ => C1) = OutOfBounds.
Proof.
  exists [0], (Csr 4 [0; 1; 2; 3; 4] [0; 1; 2; 3] [C1; C1; C1; C1]).
  eexists. eexists. exists (fun _ => C0), [[0; 1]; [2; 2; 2; 2]].
  split; [|split; [discriminate|split; [reflexivity|split; [reflexivity|vm_compute; reflexivity]]]].
  intros r Hr. assert (r = 0 \/ r = 1 \/ r = 2 \/ r = 3) as [-> |[-> |[-> | ->]]] by (simpl in Hr; lia);
    vm_compute; (split; [repeat constructor; simpl; intuition discriminate|repeat constructor]).
Qed.
Lemma argument_order_matters : exists k, call_data k /\ ~ call_valid k /\ make true k = UB /\ make false k = Throw.
Proof.
  exists (Call1 GX 0 [64] [1]). split; [exact I|]. split; [|split; vm_compute; reflexivity].
  intros (_ & HF & _). inversion HF as [|? ? _ H2]; subst. inversion H2; subst. discriminate.
Qed.
Lemma valid_example : call_valid (CallSwap 3 1 [0; 62] [1; 0]) /\ ~ call_valid (CallSwap 3 1 [0; 3] [1; 0]).
Proof.
  split.
  - split; [|split; [|split]].
    + repeat constructor; simpl; intuition discriminate.
    + repeat constructor.
    + right. reflexivity.
    + apply Forall_forall; intros v [<- |[<- |[]]]; auto.
  - intros (H & _). inversion H as [|? ? H1 _]; subst. apply H1. simpl. auto.
Qed.
Lemma pauli_out_of_bounds : exists k g p junk scheds, call_typed k /\ make false k = Ok g /\ update_plan 1 2 0 g = Ok p /\
  run_plan 2 p junk scheds (fun _ => C1) = OutOfBounds.
Proof.
  exists (CallPauli (Pauli C1 8 0) [] []). eexists. eexists. exists (fun _ => C0), [[0; 0; 0; 0]].
  split; [split; reflexivity|]. split; [reflexivity|]. split; [reflexivity|]. vm_compute. reflexivity.
Qed.
Lemma pauli_mixes_batches : exists k g, call_typed k /\ make false k = Ok g /\ ~ Forall (fun q => q < 1) (call_operands k) /\
  forall psi, exists r, result 1 2 0 g psi r /\ batch 1 0 r 0 = batch 1 1 psi 0.
Proof.
  exists (CallPauli (Pauli C1 2 0) [] []), (EPauli (GBase 2 0 0) (Pauli C1 2 0)).
  split; [split; reflexivity|]. split; [vm_compute; reflexivity|]. split; [intros H; vm_compute in H; inversion H; discriminate|].
  intros psi.
  (* the update is the one of a single state of two qubits *)
  assert (Hw : gate_wf (EPauli (GBase 2 0 0) (Pauli C1 2 0))).
  { split; [split; [reflexivity|]; split; [reflexivity|]; split; reflexivity|reflexivity]. }
  assert (Hf : gate_fits 2 (EPauli (GBase 2 0 0) (Pauli C1 2 0))) by (split; reflexivity).
  assert (Hs : sizes_ok 2 1 0) by (split; [reflexivity|]; split; [discriminate|left; reflexivity]).
  pose proof (update_correct' 2 1 0 _ psi Hw Hf Hs) as Hu. destruct (updating_exists _ _ _ _ _ _ Hu) as [r Hr]. exists r. split.
  - destruct Hr as (p & junk & scheds & Hp & Hr). exists p, junk, scheds. split; [exact Hp|exact Hr].
  - unfold batch. change (0 * 2 ^ 1 + 0) with 0. change (1 * 2 ^ 1 + 0) with 2.
    rewrite (updating_result _ _ _ _ _ _ _ 0 Hu Hr) by reflexivity. unfold gate_sem. cbn [g_base g_t g_c g_cv get_matrix m_at].
    change 2 with (N.lor 2 0) at 1.
    rewrite (apply_mat_ext_mat _ _ _ (fun i j => (C1 * pauli_textbook 2 0 (bits (N.lor 2 0)) i j)%C)).
    + unfold pauli_textbook. rewrite (apply_mat_pauli _ _ 2 0 C1 psi 0); [|apply covers_bits]. change (ctrl_ok (ctrls 0 0) 0) with true. cbv iota.
      assert (Ep : pauli_phase 2 0 0 = C1) by (unfold pauli_phase, pauli_sign, mi_pow; cbn; c_eq; ring). rewrite Ep. change (N.lxor 0 2) with 2. ring.
    + apply (pauli_get_matrix_textbook (Pauli C1 2 0)); reflexivity.
Qed.
Lemma out_of_range_example : exists g, make false (Call1 GX 3 [1] []) = Ok g /\ ~ Forall (fun q => q < 3) (call_operands (Call1 GX 3 [1] [])).
Proof. eexists. split; [vm_compute; reflexivity|]. intros H. inversion H; discriminate. Qed.
