(** Consequences at the level of calls: updates, batches, inverses, norms. *)
From Verif Require Export GatesProofs4.
From Coq Require Import ZifyBool ZifyN ZifyNat Permutation Sorting.Sorted FunctionalExtensionality.


Lemma means_fits n g ts cs M : means g ts cs M -> Forall (fun q => q < n) (ts ++ map fst cs) -> gate_fits n g.
Proof.
  intros Hm HF. apply Forall_app in HF. destruct HF as [Ft Fc]. rewrite Forall_forall in Ft, Fc.
  split; apply lt_pow2_testbit; intros i Hi; apply not_true_is_false; intros E.
  - apply (means_t _ _ _ _ Hm) in E. apply Ft in E. lia.
  - apply (means_c _ _ _ _ Hm) in E. apply Fc in E. lia.
Qed.
Lemma fits_means n g ts cs M : means g ts cs M -> gate_fits n g -> Forall (fun q => q < n) (ts ++ map fst cs).
Proof.
  intros Hm [Ht Hc]. apply Forall_app. split; apply Forall_forall; intros q Hq.
  - apply (means_t _ _ _ _ Hm) in Hq. destruct (N.ltb_spec q n); [assumption|]. rewrite (testbit_high _ n) in Hq by assumption. discriminate.
  - apply (means_c _ _ _ _ Hm) in Hq. destruct (N.ltb_spec q n); [assumption|]. rewrite (testbit_high _ n) in Hq by assumption. discriminate.
Qed.
Lemma call_targets_NoDup vf k g : call_typed k -> make vf k = Ok g -> NoDup (call_targets k).
Proof.
  intros Hty H. destruct k; cbn [call_targets make] in *;
    try solve [constructor | apply bits_NoDup | apply NoDup_seqN | repeat constructor; intros []].
  - inv_bind H. apply create_ok in H. destruct H as (t & c & cv & Ht & _). apply vector_to_mask_ok in Ht. tauto.
  - inv_bind H. inv_bind H. destruct v0 as [[t c] cv]. apply mask_args_ok in E0. destruct E0 as (Ht & _).
    apply vector_to_mask_ok in Ht. destruct Ht as (_ & Ht & _). inversion Ht as [|? ? H1 _]; subst.
    repeat constructor; simpl in *; intuition.
  - inv_bind H. destruct (64 <=? _); [discriminate|]. destruct (_ || _); [discriminate|].
    apply create_ok in H. destruct H as (t & c & cv & Ht & _). apply vector_to_mask_ok in Ht. tauto.
  - inv_bind H. destruct (is_sorted targets).
    + apply create_ok in H. destruct H as (t & c & cv & Ht & _). apply vector_to_mask_ok in Ht. tauto.
    + destruct (_ || _); [discriminate|]. apply create_ok in H. destruct H as (t & c & cv & Ht & _).
      apply vector_to_mask_ok in Ht. tauto.
Qed.
Lemma call_targets_len vf k g n : call_typed k -> make vf k = Ok g -> Forall (fun q => q < n) (call_targets k) ->
  N.of_nat (length (call_targets k)) <= n.
Proof.
  intros Hty H HF. pose proof (call_targets_NoDup vf k g Hty H) as Hnd.
  assert (incl (call_targets k) (seqN n)).
  { intros q Hq. apply in_seqN. rewrite Forall_forall in HF. auto. }
  apply NoDup_incl_length in H0; [|assumption]. rewrite length_seqN in H0. lia.
Qed.

Theorem call_correct vf k g n B L psi : call_typed k -> make vf k = Ok g -> Forall (fun q => q < n) (call_operands k) ->
  n < 64 -> B * 2 ^ n <= two64 -> lanes_ok L ->
  exists p, update_plan n (B * 2 ^ n) L g = Ok p /\
            updates_to (B * 2 ^ n) p psi (apply_mat (call_targets k) (call_controls k) (call_matrix k) psi).
Proof.
  intros Hty H HF Hn HB HL. pose proof (make_means vf k g Hty H) as Hm.
  destruct (update_correct n B L Hn HB HL g psi (means_wf _ _ _ _ Hm) (means_fits _ _ _ _ _ Hm HF)) as (p & Hp & Hu).
  exists p. split; [assumption|]. eapply updates_to_ext; [|exact Hu]. intros a _. apply (means_sem _ _ _ _ Hm).
  apply Forall_app in HF. destruct HF as [Ft _]. pose proof (call_targets_len vf k g n Hty H Ft). lia.
Qed.

(** ** Batches *)
Lemma flat_tb_low n b i q : i < 2 ^ n -> q < n -> N.testbit (b * 2 ^ n + i) q = N.testbit i q.
Proof.
  intros Hi Hq. rewrite <- (N.mod_pow2_bits_low (b * 2 ^ n + i) n q) by assumption.
  rewrite N.add_comm, N.mod_add by (apply N.pow_nonzero; lia). now rewrite N.mod_small.
Qed.
Lemma flat_tb_high n b i q : i < 2 ^ n -> n <= q -> N.testbit (b * 2 ^ n + i) q = N.testbit b (q - n).
Proof.
  intros Hi Hq. replace (N.testbit b (q - n)) with (N.testbit (N.shiftr (b * 2 ^ n + i) n) (q - n)).
  - rewrite N.shiftr_spec'. f_equal. lia.
  - f_equal. rewrite N.shiftr_div_pow2, N.div_add_l by (apply N.pow_nonzero; lia). rewrite N.div_small by assumption. lia.
Qed.
Lemma scatter_flat ts j n b i : NoDup ts -> Forall (fun q => q < n) ts -> i < 2 ^ n ->
  scatter ts j (b * 2 ^ n + i) = b * 2 ^ n + scatter ts j i.
Proof.
  intros Hnd HF Hi. pose proof (scatter_lt ts j i n Hnd HF Hi) as Hs. apply N.bits_inj. intros q.
  destruct (N.ltb_spec q n) as [Hq|Hq].
  - rewrite flat_tb_low by assumption. destruct (in_dec_N q ts) as [Hin|Hin].
    + apply In_nth_error in Hin. destruct Hin as [k Hk]. now rewrite !(scatter_in ts _ _ k).
    + rewrite !scatter_out by assumption. now apply flat_tb_low.
  - rewrite flat_tb_high by assumption. rewrite scatter_out.
    + now apply flat_tb_high.
    + intros Hin. rewrite Forall_forall in HF. apply HF in Hin. lia.
Qed.
Lemma gather_flat ts n b i : Forall (fun q => q < n) ts -> i < 2 ^ n -> gather ts (b * 2 ^ n + i) = gather ts i.
Proof.
  intros HF Hi. apply gather_inj_ext. intros t Ht. rewrite Forall_forall in HF. apply flat_tb_low; auto.
Qed.
Lemma ctrl_ok_flat cs n b i : Forall (fun q => q < n) (map fst cs) -> i < 2 ^ n -> ctrl_ok cs (b * 2 ^ n + i) = ctrl_ok cs i.
Proof.
  intros HF Hi. induction cs as [|[q v] cs IH]; [reflexivity|]. simpl in *. inversion HF; subst.
  rewrite flat_tb_low by assumption. now rewrite IH.
Qed.
Lemma apply_mat_batch ts cs M psi n b i : NoDup ts -> Forall (fun q => q < n) (ts ++ map fst cs) -> i < 2 ^ n ->
  batch n b (apply_mat ts cs M psi) i = apply_mat ts cs M (batch n b psi) i.
Proof.
  intros Hnd HF Hi. apply Forall_app in HF. destruct HF as [Ft Fc]. unfold batch, apply_mat.
  rewrite ctrl_ok_flat by assumption. destruct (ctrl_ok cs i); [|reflexivity].
  rewrite gather_flat by assumption. apply Csum_ext. intros j _. now rewrite scatter_flat.
Qed.
Lemma apply_mat_local_flat ts cs M psi phi n B a : NoDup ts -> Forall (fun q => q < n) ts ->
  (forall x, x < B * 2 ^ n -> psi x = phi x) -> a < B * 2 ^ n -> apply_mat ts cs M psi a = apply_mat ts cs M phi a.
Proof.
  intros Hnd HF H Ha. unfold apply_mat. destruct (ctrl_ok cs a); [|auto]. apply Csum_ext. intros j _. rewrite H; [reflexivity|].
  apply shiftr_lt. rewrite scatter_shiftr by assumption. now apply shiftr_lt.
Qed.
Lemma updates_to_run D p psi psi' junk scheds r : updates_to D p psi psi' -> run_plan D p junk scheds psi = Finished r ->
  forall a, a < D -> r a = psi' a.
Proof. intros [H _] E. specialize (H junk scheds). now rewrite E in H. Qed.

Theorem call_batched vf k g n B L psi : call_typed k -> make vf k = Ok g -> Forall (fun q => q < n) (call_operands k) ->
  n < 64 -> B * 2 ^ n <= two64 -> lanes_ok L ->
  exists p p1, update_plan n (B * 2 ^ n) L g = Ok p /\ update_plan n (2 ^ n) L g = Ok p1 /\
    forall b, b < B -> forall junk scheds r junk1 scheds1 r1,
      run_plan (B * 2 ^ n) p junk scheds psi = Finished r ->
      run_plan (2 ^ n) p1 junk1 scheds1 (batch n b psi) = Finished r1 ->
      forall i, i < 2 ^ n -> batch n b r i = r1 i.
Proof.
  intros Hty H HF Hn HB HL.
  destruct (call_correct vf k g n B L psi Hty H HF Hn HB HL) as (p & Hp & Hu).
  assert (HB1 : 1 * 2 ^ n <= two64) by (rewrite N.mul_1_l; unfold two64; apply N.pow_le_mono_r; lia).
  pose proof (call_correct vf k g n 1 L) as H1. rewrite N.mul_1_l in H1, HB1.
  destruct (H1 psi Hty H HF Hn HB1 HL) as (p1 & Hp1 & _).
  exists p, p1. split; [assumption|]. split; [assumption|]. intros b Hb junk scheds r junk1 scheds1 r1 Hr Hr1 i Hi.
  destruct (H1 (batch n b psi) Hty H HF Hn HB1 HL) as (p1' & Hp1' & Hu1).
  rewrite Hp1 in Hp1'. injection Hp1' as <-.
  unfold batch at 1. rewrite (updates_to_run _ _ _ _ _ _ _ Hu Hr).
  - rewrite (updates_to_run _ _ _ _ _ _ _ Hu1 Hr1) by assumption.
    apply (apply_mat_batch _ _ _ psi n b i); [eapply call_targets_NoDup; eassumption|exact HF|assumption].
  - assert (b * 2 ^ n + 2 ^ n <= B * 2 ^ n) by (rewrite <- N.mul_succ_l; apply N.mul_le_mono_r; lia). lia.
Qed.

(** ** Inverses *)
Definition gate_ops (g : egate) : list N * list (N * bool) :=
  (bits (g_t (g_base g)), ctrls (g_c (g_base g)) (g_cv (g_base g))).
Lemma gate_ops_wf n g : gate_wf g -> gate_fits n g -> wf_ops n (fst (gate_ops g)) (snd (gate_ops g)).
Proof. intros [(Hd & _) _] [Ht Hc]. now apply wf_ops_masks. Qed.

Lemma cos2sin2 x : (cos x * cos x + sin x * sin x = 1)%R.
Proof. pose proof (sin2_cos2 x) as H. unfold Rsqr in H. lra. Qed.
Lemma isq2_sq : (isq2 * isq2 = RtoC (/ 2))%C.
Proof. unfold isq2. rewrite inv_sqrt2. c_eq; pose proof isqrt2_sq; lra. Qed.
Lemma mat_mul_2 A B i j : mat_mul 2 A B i j = (A i 0 * B 0 j + A i 1 * B 1 j)%C.
Proof. unfold mat_mul. apply Csum_2. Qed.
Lemma Cexpi_PI : Cexpi PI = (- C1)%C.
Proof. unfold Cexpi. c_eq; [apply cos_PI|rewrite sin_PI; lra]. Qed.
Lemma RtoC_cs2 x : (RtoC (cos x) * RtoC (cos x) + RtoC (sin x) * RtoC (sin x) = C1)%C.
Proof. c_eq; pose proof (cos2sin2 x); lra. Qed.

Lemma Cexpi_conj x : Cconj (Cexpi x) = Cexpi (- x).
Proof. unfold Cexpi. c_eq; [now rewrite cos_neg|now rewrite sin_neg]. Qed.
Lemma RtoC_conj x : Cconj (RtoC x) = RtoC x.
Proof. c_eq; lra. Qed.
(** matrices of the form [[c, -l s], [f s, f l c]] with c^2 + s^2 = 1, |f| = |l| = 1 *)
Lemma unitary_euler (c s f f' l l' : C) : (c * c + s * s = C1)%C -> Cconj c = c -> Cconj s = s ->
  Cconj f = f' -> Cconj l = l' -> (f * f' = C1)%C -> (l * l' = C1)%C ->
  unitary 2 (mat2 c (- l * s) (f * s) (f * l * c))%C.
Proof.
  intros Hcs Hc Hs Hf Hl Hff Hll. assert (Hcc : (c * c = C1 - s * s)%C) by (rewrite <- Hcs; ring).
  split; mat2_cases; rewrite mat_mul_2; unfold mat_adj, mat2, mat_id; simpl;
    rewrite ?Cconj_mul, ?Cconj_opp, ?Hc, ?Hs, ?Hf, ?Hl; try rewrite Cconj_mul; rewrite ?Hf, ?Hl; ring [Hcc Hff Hll].
Qed.
Lemma unitary_ext d A A' : mat_eq d A A' -> unitary d A -> unitary d A'.
Proof.
  intros E [H1 H2]. split; intros i j Hi Hj.
  - rewrite <- (H1 i j Hi Hj). unfold mat_mul, mat_adj. apply Csum_ext. intros k Hk. now rewrite !E.
  - rewrite <- (H2 i j Hi Hj). unfold mat_mul, mat_adj. apply Csum_ext. intros k Hk. now rewrite !E.
Qed.
Lemma std1_unitary k : (exists k', std1_inverse k = Ok k') -> unitary 2 (std1_matrix k).
Proof.
  intros [k' H]. assert (Hr : forall x, (RtoC (cos x) * RtoC (cos x) + RtoC (sin x) * RtoC (sin x) = C1)%C) by apply RtoC_cs2.
  destruct k; try discriminate H; try solve [
    split; mat2_cases; rewrite mat_mul_2; unfold mat_adj, mat2, mat_id, half; simpl; rewrite ?inv_sqrt2; c_eq;
    pose proof isqrt2_sq; lra].
  - (* RX *) apply unitary_ext with (mat2 (RtoC (cos (angle / 2))) (- Cexpi (PI / 2) * RtoC (sin (angle / 2)))
                                (Cexpi (- (PI / 2)) * RtoC (sin (angle / 2))) (Cexpi (- (PI / 2)) * Cexpi (PI / 2) * RtoC (cos (angle / 2))))%C.
    + mat2_cases; simpl; c_eq; rewrite ?cos_neg, ?sin_neg, ?cos_PI2, ?sin_PI2; lra.
    + apply unitary_euler with (Cexpi (PI / 2)) (Cexpi (- (PI / 2))); rewrite ?Cexpi_conj, ?RtoC_conj, ?Ropp_involutive; auto.
      * rewrite <- (Ropp_involutive (PI / 2)) at 2. apply Cexpi_inv. * apply Cexpi_inv.
  - (* RY *) apply unitary_ext with (mat2 (RtoC (cos (angle / 2))) (- C1 * RtoC (sin (angle / 2)))
                                (C1 * RtoC (sin (angle / 2))) (C1 * C1 * RtoC (cos (angle / 2))))%C.
    + mat2_cases; simpl; c_eq; lra.
    + apply unitary_euler with C1 C1; rewrite ?RtoC_conj; auto; try ring; c_eq; lra.
  - (* RZ *) split; mat2_cases; rewrite mat_mul_2; unfold mat_adj, mat2, mat_id; simpl; c_eq; rewrite ?cos_neg, ?sin_neg;
      pose proof (cos2sin2 (angle / 2)); lra.
  - (* U1 *) split; mat2_cases; rewrite mat_mul_2; unfold mat_adj, mat2, mat_id; simpl; c_eq;
      pose proof (cos2sin2 lambda); lra.
  - (* U2 *) apply unitary_euler with (Cexpi (- phi)) (Cexpi (- lambda)); rewrite ?Cexpi_conj, ?RtoC_conj; auto using Cexpi_inv.
  - (* U3 *) apply unitary_euler with (Cexpi (- phi)) (Cexpi (- lambda)); rewrite ?Cexpi_conj, ?RtoC_conj; auto using Cexpi_inv.
Qed.
Lemma Cexpi_PI' x : Cexpi (x + PI) = (- Cexpi x)%C.
Proof. rewrite Cexpi_add, Cexpi_PI. ring. Qed.
Lemma Cexpi_mPI x : Cexpi (x - PI) = (- Cexpi x)%C.
Proof. assert (E : Cexpi x = (- Cexpi (x - PI))%C) by (rewrite <- Cexpi_PI'; f_equal; lra). rewrite E. ring. Qed.
Lemma std1_inverse_adj k k' : std1_inverse k = Ok k' -> mat_eq 2 (std1_matrix k') (mat_adj (std1_matrix k)).
Proof.
  intros H. destruct k; injection H as <- || discriminate H; unfold std1_matrix, mat_adj; mat2_cases; simpl; unfold half;
    try solve [rewrite ?inv_sqrt2; c_eq; lra].
  all: repeat match goal with |- context [(- ?a / 2)%R] => replace (- a / 2)%R with (- (a / 2))%R by lra end.
  all: rewrite ?cos_neg, ?sin_neg, ?Ropp_involutive, ?Cexpi_PI', ?Cexpi_mPI, ?Cconj_mul, ?Cconj_opp, ?Cexpi_conj, ?RtoC_conj, ?Ropp_involutive.
  all: try solve [ring | c_eq; rewrite ?cos_neg, ?sin_neg, ?Ropp_involutive; lra].
  all: rewrite ?Cconj_mul, ?Cexpi_conj.
  all: try solve [ring | c_eq; rewrite ?cos_neg, ?sin_neg, ?Ropp_involutive; ring].
Qed.
Lemma mat_mul_ext d A A' B B' : mat_eq d A A' -> mat_eq d B B' -> mat_eq d (mat_mul d A B) (mat_mul d A' B').
Proof. intros H1 H2 i j Hi Hj. unfold mat_mul. apply Csum_ext. intros k Hk. now rewrite H1, H2. Qed.
Lemma std1_inverse_mul k k' : std1_inverse k = Ok k' -> mat_eq 2 (mat_mul 2 (std1_matrix k') (std1_matrix k)) mat_id.
Proof.
  intros H. pose proof (std1_unitary k (ex_intro _ k' H)) as [H1 _].
  eapply mat_eq_trans; [|exact H1]. apply mat_mul_ext; [now apply std1_inverse_adj|apply mat_eq_refl].
Qed.

(** Pauli strings square to the identity and are Hermitian. *)
Lemma pauli_phase_sq bf pf a : (pauli_phase bf pf a * pauli_phase bf pf (N.lxor a bf) = C1)%C.
Proof.
  unfold pauli_phase. rewrite land_lxor_distr, pauli_sign_mul.
  assert (E : (mi_pow (popcount (N.land bf pf)) * mi_pow (popcount (N.land bf pf)) = pauli_sign (N.land bf pf))%C).
  { rewrite <- mi_pow_add. replace (popcount _ + popcount _) with (2 * popcount (N.land bf pf)) by lia.
    rewrite mi_pow_double. unfold pauli_sign. now rewrite parity_popcount. }
  assert (S2 : forall x, (pauli_sign x * pauli_sign x = C1)%C) by (intros x; unfold pauli_sign; destruct (parity x); ring).
  set (m := mi_pow _) in *. transitivity ((m * m) * pauli_sign (N.land bf pf) * (pauli_sign (N.land a pf) * pauli_sign (N.land a pf)))%C; [ring|].
  rewrite E, !S2. ring.
Qed.
