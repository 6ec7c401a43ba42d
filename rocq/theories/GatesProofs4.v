(** The factories build well-formed gate objects that mean what the call says. *)
From Verif Require Export GatesProofs3.
From Coq Require Import ZifyBool ZifyN ZifyNat Permutation Sorting.Sorted FunctionalExtensionality.

Lemma bindR_ok {A B} (r : res A) (f : A -> res B) b : bindR r f = Ok b -> exists a, r = Ok a /\ f a = Ok b.
Proof. destruct r; simpl; intros H; try discriminate. eauto. Qed.
Ltac inv_bind H := let a := fresh "v" in let E := fresh "E" in apply bindR_ok in H; destruct H as (a & E & H).

Lemma mask_args_ok vf t cs vs t' c cv : mask_args vf t cs vs = Ok (t', c, cv) ->
  t = Ok t' /\ vector_to_mask cs = Ok c /\ vector_to_mask_values cs vs = Ok cv.
Proof.
  unfold mask_args. destruct vf; intros H; inv_bind H; inv_bind H; inv_bind H; injection H as <- <- <-; auto.
Qed.
Lemma make_base_ok t c cv b : make_base t c cv = Ok b <-> N.land t c = 0 /\ b = GBase t c cv.
Proof. unfold make_base. destruct (N.eqb_spec (N.land t c) 0); split; [intros [= <-]; auto|intros [_ ->]; auto|discriminate|tauto]. Qed.
Lemma create_ok vf t cs vs k g : create vf t cs vs k = Ok g ->
  exists t' c cv, t = Ok t' /\ vector_to_mask cs = Ok c /\ vector_to_mask_values cs vs = Ok cv /\
                  N.land t' c = 0 /\ g = k (GBase t' c cv).
Proof.
  unfold create. intros H. inv_bind H. destruct v as [[t' c] cv]. apply mask_args_ok in E. destruct E as (E1 & E2 & E3).
  inv_bind H. apply make_base_ok in E. destruct E as [E ->]. injection H as <-. exists t', c, cv. auto.
Qed.

Lemma values_01 cs vs c cv : length vs = length cs -> vector_to_mask cs = Ok c -> vector_to_mask_values cs vs = Ok cv ->
  Forall (fun v => v < 2) vs.
Proof.
  intros Hl Hc Hv. apply vector_to_mask_ok in Hc. destruct Hc as (HF & _ & _).
  destruct (forallb (fun v => v <? 2) vs) eqn:E.
  - rewrite forallb_forall in E. apply Forall_forall. intros v Hin. specialize (E v Hin). lia.
  - rewrite (vector_to_mask_values_throw cs vs HF Hl) in Hv; [discriminate|]. intros H.
    apply not_true_iff_false in E. apply E. apply forallb_forall. rewrite Forall_forall in H. intros v Hin.
    specialize (H v Hin). lia.
Qed.
Lemma in_combine_map (l vs : list N) q (b : bool) (f : N -> bool) :
  In (q, b) (combine l (map f vs)) <-> exists v, In (q, v) (combine l vs) /\ b = f v.
Proof.
  revert vs. induction l as [|x l IH]; intros [|v vs]; simpl; try solve [split; [intros []|intros (? & [] & _)]].
  rewrite IH. split.
  - intros [[= <- <-]|(w & H & ->)]; [exists v; auto|exists w; auto].
  - intros (w & [[= <- <-]|H] & ->); [auto|right; eauto].
Qed.
Lemma controls_meaning cs vs0 vs c cv : resize_and_check_control_values cs vs0 = Ok vs ->
  vector_to_mask cs = Ok c -> vector_to_mask_values cs vs = Ok cv ->
  N.land cv c = cv /\ (forall p, In p (ctrls c cv) <-> In p (with_values cs vs0)) /\
  map fst (with_values cs vs0) = cs /\ Forall (fun v => v = 0 \/ v = 1) vs /\ length vs = length cs /\
  (vs0 = [] \/ vs = vs0).
Proof.
  intros Hr Hc Hv.
  assert (Hvs : vs = match vs0 with [] => repeat 1 (length cs) | _ => vs0 end /\ length vs = length cs).
  { unfold resize_and_check_control_values in Hr. destruct (Nat.eqb_spec (length cs) (length (match vs0 with [] => repeat 1 (length cs) | _ => vs0 end))) as [E|]; [|discriminate].
    injection Hr as <-. auto. }
  destruct Hvs as [Evs Hl]. pose proof (values_01 cs vs c cv Hl Hc Hv) as H01.
  pose proof Hc as Hc'. apply vector_to_mask_ok in Hc'. destruct Hc' as (HF & HD & HT).
  split; [eapply vector_to_mask_values_sub; eassumption|]. split; [|split; [|split; [|split; [assumption|]]]].
  - intros [q b]. rewrite in_ctrls. unfold with_values. rewrite <- Evs, in_combine_map, HT. split.
    + intros [Hin ->]. apply (In_nth _ _ 0) in Hin. destruct Hin as (k & Hk & <-).
      assert (Hk2 : In (nth k cs 0, nth k vs 0) (combine cs vs)).
      { rewrite <- combine_nth by congruence. apply nth_In. rewrite combine_length. lia. }
      exists (nth k vs 0). split; [assumption|].
      pose proof (vector_to_mask_values_read cs vs cv _ _ HD HF Hl H01 Hv Hk2) as E. rewrite <- E.
      destruct (N.testbit cv (nth k cs 0)); reflexivity.
    + intros (v & Hin & ->). split; [eapply in_combine_l; eassumption|].
      pose proof (vector_to_mask_values_read cs vs cv _ _ HD HF Hl H01 Hv Hin) as E. rewrite <- E.
      destruct (N.testbit cv q); reflexivity.
  - unfold with_values. rewrite <- Evs. clear - Hl. revert vs Hl. induction cs as [|x cs IH]; intros [|v vs] H; simpl in *; try lia; [reflexivity|].
    f_equal. apply IH. lia.
  - eapply Forall_impl; [|exact H01]. simpl. intros; lia.
  - subst vs. destruct vs0; auto.
Qed.
Lemma base_ok_intro t c cv : t < two64 -> c < two64 -> N.land t c = 0 -> N.land cv c = cv -> base_ok (GBase t c cv).
Proof. unfold base_ok. cbn. auto. Qed.
Lemma mask_pow2 q t : vector_to_mask [q] = Ok t -> t = 2 ^ q /\ q < 64.
Proof.
  intros H. apply vector_to_mask_ok in H. destruct H as (HF & _ & HT). inversion HF; subst. split; [|assumption].
  apply N.bits_inj. intros i. apply eq_iff_eq_true. rewrite HT, pow2_tb, N.eqb_eq. simpl. intuition.
Qed.
Lemma mask_two p q t : vector_to_mask [p; q] = Ok t -> t = N.lor (2 ^ p) (2 ^ q) /\ p <> q /\ p < 64 /\ q < 64.
Proof.
  intros H. apply vector_to_mask_ok in H. destruct H as (HF & HD & HT). inversion HF as [|? ? H1 H2]; subst. inversion H2; subst.
  inversion HD as [|? ? H5 _]; subst. simpl in H5. repeat split; try assumption; [|intuition].
  apply N.bits_inj. intros i. apply eq_iff_eq_true. rewrite HT, N.lor_spec, !pow2_tb, orb_true_iff, !N.eqb_eq. simpl. intuition.
Qed.
Lemma mask_popcount l t : vector_to_mask l = Ok t -> popcount t = N.of_nat (length l).
Proof. intros H. rewrite <- bits_length. f_equal. apply Permutation_length. now apply vector_to_mask_bits. Qed.
Lemma lt_two64_pow a : a < two64 <-> a < 2 ^ 64.
Proof. reflexivity. Qed.

(** The mask built from the operand list of a Pauli operator is the union of its masks. *)
Lemma novalidate_aux l : forall m r, vector_to_mask_novalidate_aux m l = Ok r ->
  forall i, N.testbit r i = true <-> N.testbit m i = true \/ In i l.
Proof.
  induction l as [|x l IH]; intros m r; simpl.
  - intros [= <-]. tauto.
  - destruct (N.leb_spec 64 x); [discriminate|]. intros H1 i. rewrite (IH _ _ H1). rewrite shl64_one by assumption.
    rewrite N.lor_spec, pow2_tb, orb_true_iff, N.eqb_eq. intuition.
Qed.
Lemma novalidate_total l : forall m, Forall (fun x => x < 64) l -> exists r, vector_to_mask_novalidate_aux m l = Ok r.
Proof.
  induction l as [|x l IH]; intros m H; simpl; [eauto|]. inversion H; subst. destruct (N.leb_spec 64 x); [lia|]. now apply IH.
Qed.
Lemma pauli_mask p : N.lor (p_bf p) (p_pf p) < two64 ->
  vector_to_mask_novalidate (pauli_target_list p) = Ok (N.lor (p_bf p) (p_pf p)).
Proof.
  intros H. unfold pauli_target_list. rewrite mask_to_vector_bits by assumption.
  destruct (novalidate_total (bits (N.lor (p_bf p) (p_pf p))) 0) as [r Hr]; [now apply bits_lt|].
  unfold vector_to_mask_novalidate. rewrite Hr. f_equal. apply N.bits_inj. intros i. apply eq_iff_eq_true.
  rewrite (novalidate_aux _ _ _ Hr), N.bits_0, in_bits. intuition (try discriminate).
Qed.


Record means (g : egate) (ts : list N) (cs : list (N * bool)) (M : matrix) : Prop := {
  means_wf : gate_wf g;
  means_t : forall i, N.testbit (g_t (g_base g)) i = true <-> In i ts;
  means_c : forall i, N.testbit (g_c (g_base g)) i = true <-> In i (map fst cs);
  means_cv : forall p, In p (ctrls (g_c (g_base g)) (g_cv (g_base g))) <-> In p cs;
  means_sem : N.of_nat (length ts) < 64 -> forall psi x, gate_sem g psi x = apply_mat ts cs M psi x
}.

Lemma sem_from g ts cs M : (forall p, In p (ctrls (g_c (g_base g)) (g_cv (g_base g))) <-> In p cs) ->
  bits (g_t (g_base g)) = ts -> mat_eq (2 ^ N.of_nat (length ts)) (m_at (get_matrix g)) M ->
  forall psi x, gate_sem g psi x = apply_mat ts cs M psi x.
Proof.
  intros Hcs Hts HM psi x. unfold gate_sem. rewrite Hts. rewrite (apply_mat_ctrls _ _ cs) by exact Hcs.
  now apply apply_mat_ext_mat.
Qed.
Lemma means_std1 k q c cv cs : q < 64 -> c < two64 -> N.land (2 ^ q) c = 0 -> N.land cv c = cv ->
  (forall i, N.testbit c i = true <-> In i (map fst cs)) -> (forall p, In p (ctrls c cv) <-> In p cs) ->
  means (EStd k (GBase (2 ^ q) c cv)) [q] cs (std1_textbook k).
Proof.
  intros Hq Hc Hd Hcv Hm Hcs. constructor; cbn [g_base g_t g_c g_cv].
  - split; cbn; [|eauto]. apply base_ok_intro; auto. unfold two64. apply N.pow_lt_mono_r; lia.
  - intros i. rewrite pow2_tb, N.eqb_eq. simpl. intuition.
  - exact Hm.
  - exact Hcs.
  - intros _. apply sem_from; [exact Hcs|apply bits_pow2|]. apply std1_matrix_textbook.
Qed.

Lemma cs_map c cv cs : (forall p : N * bool, In p (ctrls c cv) <-> In p cs) ->
  forall i, N.testbit c i = true <-> In i (map fst cs).
Proof.
  intros H i. rewrite <- in_bits, <- (map_fst_ctrls c cv), !in_map_iff. split; intros (p & E & Hp); exists p; split; auto; now apply H.
Qed.

Lemma means_swap2 p q c cv cs g M : p <> q -> p < 64 -> q < 64 -> c < two64 -> N.land (N.lor (2 ^ p) (2 ^ q)) c = 0 ->
  N.land cv c = cv -> (forall x, In x (ctrls c cv) <-> In x cs) ->
  g_base g = GBase (N.lor (2 ^ p) (2 ^ q)) c cv -> gate_wf g ->
  (forall psi x, gate_sem g psi x = apply_mat [p; q] (ctrls c cv) M psi x) -> means g [p; q] cs M.
Proof.
  intros Hpq Hp Hq Hc Hd Hcv Hcs Hb Hwf Hs. constructor; rewrite ?Hb; cbn [g_t g_c g_cv].
  - assumption.
  - intros i. rewrite N.lor_spec, !pow2_tb, orb_true_iff, !N.eqb_eq. simpl. intuition.
  - now apply (cs_map c cv).
  - assumption.
  - intros _ psi x. rewrite Hs. now apply apply_mat_ctrls.
Qed.
Lemma two64_pow2 q : q < 64 -> 2 ^ q < two64. Proof. intros. unfold two64. apply N.pow_lt_mono_r; lia. Qed.

Lemma lor_two64 a b : a < two64 -> b < two64 -> N.lor a b < two64.
Proof. intros H1 H2. rewrite lt_two64_pow in *. apply lor_u64_pow2; assumption. Qed.
Global Opaque pauli_get_matrix pauli_get_matrix_ignoring_coef csr_to_dense perm_matrix sparse_view
  mask_to_vector vector_to_mask_novalidate pauli_target_list.
Lemma make_means_CallI vf  g : let k := CallI in call_typed k -> make vf k = Ok g ->
  means g (call_targets k) (call_controls k) (call_matrix k).
Proof.
  intros k0 Hty H. subst k0. cbn [make call_targets call_controls call_matrix call_typed] in *.
  (* I *) injection H as <-. constructor; cbn [g_base g_t g_c g_cv].
    + split; [|exact I]. apply base_ok_intro; reflexivity.
    + intros i. rewrite N.bits_0. split; [discriminate|intros []].
    + intros i. rewrite N.bits_0. split; [discriminate|intros []].
    + intros p. reflexivity.
    + intros _. apply sem_from; [reflexivity|reflexivity|]. intros i j Hi Hj. simpl in *.
      assert (i = 0) by lia. assert (j = 0) by lia. now subst.
Qed.
Lemma make_means_CallGlobalPhase vf phase controls control_values g : let k := CallGlobalPhase phase controls control_values in call_typed k -> make vf k = Ok g ->
  means g (call_targets k) (call_controls k) (call_matrix k).
Proof.
  intros k0 Hty H. subst k0. cbn [make call_targets call_controls call_matrix call_typed] in *.
  (* GlobalPhase *) inv_bind H. apply create_ok in H. destruct H as (t & c & cv & [= <-] & Hc & Hv & Hd & ->).
    destruct (controls_meaning _ _ _ _ _ E Hc Hv) as (Hcv & Hcs & Hm & _).
    constructor; cbn [g_base g_t g_c g_cv].
    + split; [|reflexivity]. apply base_ok_intro; [unfold two64; lia|now apply vector_to_mask_u64 in Hc|reflexivity|assumption].
    + intros i. rewrite N.bits_0. split; [discriminate|intros []].
    + now apply (cs_map c cv).
    + assumption.
    + intros _. apply sem_from; [assumption|reflexivity|]. intros i j Hi Hj. simpl in *.
      assert (i = 0) by lia. assert (j = 0) by lia. subst. unfold mat_id. simpl. ring.
Qed.
Lemma make_means_Call1 vf k target controls control_values g : let k := Call1 k target controls control_values in call_typed k -> make vf k = Ok g ->
  means g (call_targets k) (call_controls k) (call_matrix k).
Proof.
  intros k0 Hty H. subst k0. cbn [make call_targets call_controls call_matrix call_typed] in *.
  (* one target *) inv_bind H. apply create_ok in H. destruct H as (t & c & cv & Ht & Hc & Hv & Hd & ->).
    apply mask_pow2 in Ht. destruct Ht as [-> Hq].
    destruct (controls_meaning _ _ _ _ _ E Hc Hv) as (Hcv & Hcs & Hm & _).
    apply means_std1; try assumption; [now apply vector_to_mask_u64 in Hc|now apply (cs_map c cv)].
Qed.
Lemma make_means_CallCX vf control target g : let k := CallCX control target in call_typed k -> make vf k = Ok g ->
  means g (call_targets k) (call_controls k) (call_matrix k).
Proof.
  intros k0 Hty H. subst k0. cbn [make call_targets call_controls call_matrix call_typed] in *.
  (* CX *) apply create_ok in H. destruct H as (t & c & cv & Ht & Hc & Hv & Hd & ->).
    apply mask_pow2 in Ht. destruct Ht as [-> Hq].
    destruct (controls_meaning [control] [] [1] c cv eq_refl Hc Hv) as (Hcv & Hcs & Hm & _).
    apply (means_std1 GX); try assumption; [now apply vector_to_mask_u64 in Hc|now apply (cs_map c cv)].
Qed.
Lemma make_means_CallCZ vf control target g : let k := CallCZ control target in call_typed k -> make vf k = Ok g ->
  means g (call_targets k) (call_controls k) (call_matrix k).
Proof.
  intros k0 Hty H. subst k0. cbn [make call_targets call_controls call_matrix call_typed] in *.
  (* CZ *) apply create_ok in H. destruct H as (t & c & cv & Ht & Hc & Hv & Hd & ->).
    apply mask_pow2 in Ht. destruct Ht as [-> Hq].
    destruct (controls_meaning [control] [] [1] c cv eq_refl Hc Hv) as (Hcv & Hcs & Hm & _).
    apply (means_std1 GZ); try assumption; [now apply vector_to_mask_u64 in Hc|now apply (cs_map c cv)].
Qed.
Lemma make_means_CallCCX vf control1 control2 target g : let k := CallCCX control1 control2 target in call_typed k -> make vf k = Ok g ->
  means g (call_targets k) (call_controls k) (call_matrix k).
Proof.
  intros k0 Hty H. subst k0. cbn [make call_targets call_controls call_matrix call_typed] in *.
  (* CCX *) apply create_ok in H. destruct H as (t & c & cv & Ht & Hc & Hv & Hd & ->).
    apply mask_pow2 in Ht. destruct Ht as [-> Hq].
    destruct (controls_meaning [control1; control2] [] [1; 1] c cv eq_refl Hc Hv) as (Hcv & Hcs & Hm & _).
    apply (means_std1 GX); try assumption; [now apply vector_to_mask_u64 in Hc|now apply (cs_map c cv)].
Qed.
Lemma make_means_CallSwap vf target1 target2 controls control_values g : let k := CallSwap target1 target2 controls control_values in call_typed k -> make vf k = Ok g ->
  means g (call_targets k) (call_controls k) (call_matrix k).
Proof.
  intros k0 Hty H. subst k0. cbn [make call_targets call_controls call_matrix call_typed] in *.
  (* Swap *) inv_bind H. apply create_ok in H. destruct H as (t & c & cv & Ht & Hc & Hv & Hd & ->).
    apply mask_two in Ht. destruct Ht as (-> & Hpq & Hp & Hq).
    destruct (controls_meaning _ _ _ _ _ E Hc Hv) as (Hcv & Hcs & Hm & _).
    pose proof (vector_to_mask_u64 _ _ Hc) as Hc64.
    assert (Ht64 : N.lor (2 ^ target1) (2 ^ target2) < two64).
    { apply lor_two64; apply two64_pow2; assumption. }
    apply (means_swap2 target1 target2 c cv); try assumption; [reflexivity| |].
    + split; [now apply base_ok_intro|]. destruct (N.lt_total target1 target2) as [Hl|[Hl|Hl]]; [|contradiction|].
      * exists target1, target2. auto.
      * exists target2, target1. cbn. rewrite N.lor_comm. auto.
    + intros psi x. unfold gate_sem. cbn [g_base g_t g_c g_cv].
      destruct (N.lt_total target1 target2) as [Hl|[Hl|Hl]]; [|contradiction|].
      * rewrite bits_two by assumption. apply apply_mat_ext_mat.
        apply mat_eq_trans with swap_mat; [apply mat_eq_sym, swap_matrix_eq|apply swap_mat_textbook].
      * rewrite N.lor_comm, bits_two by assumption. rewrite <- (apply_mat_swap2 target2 target1) by lia.
        apply apply_mat_ext_mat. match goal with |- mat_eq _ ?A ?B => change (mat_eq 4 A B) end. mat4_cases; reflexivity.
Qed.
Lemma make_means_CallEcr vf physical_control physical_target controls control_values g : let k := CallEcr physical_control physical_target controls control_values in call_typed k -> make vf k = Ok g ->
  means g (call_targets k) (call_controls k) (call_matrix k).
Proof.
  intros k0 Hty H. subst k0. cbn [make call_targets call_controls call_matrix call_typed] in *.
  (* Ecr *) inv_bind H. inv_bind H. destruct v0 as [[t c] cv]. apply mask_args_ok in E0. destruct E0 as (Ht & Hc & Hv).
    inv_bind H. inv_bind H. inv_bind H. injection H as <-. apply make_base_ok in E2. destruct E2 as [Hd ->].
    apply mask_two in Ht. destruct Ht as (-> & Hpq & Hq & Hp). apply mask_pow2 in E0, E1. destruct E0 as [-> _], E1 as [-> _].
    destruct (controls_meaning _ _ _ _ _ E Hc Hv) as (Hcv & Hcs & Hm & _).
    pose proof (vector_to_mask_u64 _ _ Hc) as Hc64.
    rewrite (N.lor_comm (2 ^ physical_target)) in *.
    assert (Ht64 : N.lor (2 ^ physical_control) (2 ^ physical_target) < two64).
    { apply lor_two64; apply two64_pow2; assumption. }
    apply (means_swap2 physical_control physical_target c cv); try assumption; [lia|reflexivity| |].
    + split; [now apply base_ok_intro|]. exists physical_control, physical_target. cbn. repeat split. lia.
    + intros psi x. unfold gate_sem. cbn [g_base g_t g_c g_cv].
      destruct (N.lt_total physical_control physical_target) as [Hl|[Hl|Hl]]; [|lia|].
      * rewrite bits_two by assumption. apply apply_mat_ext_mat.
        apply mat_eq_trans with ecr_mat; [apply mat_eq_sym; now apply ecr_get_matrix|apply ecr_mat_textbook].
      * rewrite N.lor_comm, bits_two by assumption.
        rewrite <- (apply_mat_ext_mat [physical_target; physical_control] _ (fun i j => ecr_mat (flip2 i) (flip2 j)))
          by now apply ecr_get_matrix'.
        rewrite apply_mat_swap2 by lia. apply apply_mat_ext_mat. apply ecr_mat_textbook.
Qed.
Lemma make_means_CallPermutation vf dst g : let k := CallPermutation dst in call_typed k -> make vf k = Ok g ->
  means g (call_targets k) (call_controls k) (call_matrix k).
Proof.
  intros k0 Hty H. subst k0. cbn [make call_targets call_controls call_matrix call_typed] in *.
  (* Permutation *)
    destruct (N.leb_spec 64 (N.of_nat (length dst))) as [|Hlen]; [discriminate|]. inv_bind H.
    destruct (negb (v =? _)) eqn:E1; [discriminate|]. unfold make_permutation_impl in H. rewrite E in H. simpl in H.
    replace (64 <=? N.of_nat (length dst)) with false in H by lia.
    destruct (negb (v =? sub64 _ _)) eqn:E2; [discriminate|]. apply negb_false_iff, N.eqb_eq in E2. clear E1.
    rewrite bound_value in E2 by assumption. inv_bind H. injection H as <-. apply make_base_ok in E0. destruct E0 as [_ ->].
    apply vector_to_mask_ok in E. destruct E as (HF & HD & HT).
    assert (HP : is_perm dst).
    { split; [assumption|]. apply Forall_forall. intros q Hq. apply HT in Hq. rewrite E2 in Hq.
      apply in_bits in Hq. rewrite bits_ones in Hq. now apply in_seqN in Hq. }
    subst v. constructor; cbn [g_base g_t g_c g_cv].
    + split.
      * apply base_ok_intro; [|unfold two64; lia|apply N.land_0_r|reflexivity].
        pose proof (two64_pow2 _ Hlen). lia.
      * cbn. split; [exact HP|]. split; [lia|]. split; reflexivity.
    + intros i. rewrite <- in_bits, bits_ones. reflexivity.
    + intros i. rewrite N.bits_0. split; [discriminate|intros []].
    + intros p. reflexivity.
    + intros _. apply sem_from; [reflexivity|apply bits_ones|]. rewrite length_seqN, N2Nat.id. apply perm_matrix_textbook; [assumption|lia].
Qed.
Lemma make_means_CallPauli vf p controls control_values g : let k := CallPauli p controls control_values in call_typed k -> make vf k = Ok g ->
  means g (call_targets k) (call_controls k) (call_matrix k).
Proof.
  intros k0 Hty H. subst k0. cbn [make call_targets call_controls call_matrix call_typed] in *.
  (* Pauli *) inv_bind H. inv_bind H. destruct v0 as [[t c] cv]. apply mask_args_ok in E0. destruct E0 as (_ & Hc & Hv).
    inv_bind H. injection H as <-. destruct Hty as [Hbf Hpf]. unfold make_pauli_base in E0.
    assert (Hm64 : N.lor (p_bf p) (p_pf p) < two64) by (apply lor_two64; assumption).
    rewrite pauli_mask in E0 by assumption. simpl in E0. apply make_base_ok in E0. destruct E0 as [Hd ->].
    destruct (controls_meaning _ _ _ _ _ E Hc Hv) as (Hcv & Hcs & Hm & _).
    pose proof (vector_to_mask_u64 _ _ Hc) as Hc64. constructor; cbn [g_base g_t g_c g_cv].
    + split; [now apply base_ok_intro|reflexivity].
    + intros i. now rewrite in_bits.
    + now apply (cs_map c cv).
    + assumption.
    + intros Hl. rewrite bits_length in Hl. apply sem_from; [assumption|reflexivity|]. rewrite bits_length.
      now apply pauli_get_matrix_textbook.
Qed.
Lemma make_means_CallPauliRotation vf p angle controls control_values g : let k := CallPauliRotation p angle controls control_values in call_typed k -> make vf k = Ok g ->
  means g (call_targets k) (call_controls k) (call_matrix k).
Proof.
  intros k0 Hty H. subst k0. cbn [make call_targets call_controls call_matrix call_typed] in *.
  (* PauliRotation *) inv_bind H. inv_bind H. destruct v0 as [[t c] cv]. apply mask_args_ok in E0. destruct E0 as (_ & Hc & Hv).
    inv_bind H. injection H as <-. destruct Hty as [Hbf Hpf]. unfold make_pauli_base in E0.
    assert (Hm64 : N.lor (p_bf p) (p_pf p) < two64) by (apply lor_two64; assumption).
    rewrite pauli_mask in E0 by assumption. simpl in E0. apply make_base_ok in E0. destruct E0 as [Hd ->].
    destruct (controls_meaning _ _ _ _ _ E Hc Hv) as (Hcv & Hcs & Hm & _).
    pose proof (vector_to_mask_u64 _ _ Hc) as Hc64. constructor; cbn [g_base g_t g_c g_cv].
    + split; [now apply base_ok_intro|reflexivity].
    + intros i. now rewrite in_bits.
    + now apply (cs_map c cv).
    + assumption.
    + intros Hl. rewrite bits_length in Hl. apply sem_from; [assumption|reflexivity|]. rewrite bits_length.
      intros i j Hi Hj. cbn [get_matrix m_at]. rewrite (pauli_get_matrix_ignoring_textbook p) by assumption.
      unfold pauli_rotation_textbook. 
      replace (Cscale (/ 2) (Cscale angle (p_coef p))) with (Cscale (angle / 2) (p_coef p)) by (c_eq; lra).
      generalize (Cscale (angle / 2) (p_coef p)). intros h.
      replace (Ccos (- h)) with (Ccos h).
      2:{ unfold Ccos. c_eq; rewrite ?cos_neg, ?sin_neg; unfold cosh, sinh; rewrite ?Ropp_involutive; lra. }
      replace (Csin (- h)) with (- Csin h)%C.
      2:{ unfold Csin. c_eq; rewrite ?cos_neg, ?sin_neg; unfold cosh, sinh; rewrite ?Ropp_involutive; lra. }
      ring.
Qed.
Lemma make_means_CallDense vf targets M controls control_values is_unitary g : let k := CallDense targets M controls control_values is_unitary in call_typed k -> make vf k = Ok g ->
  means g (call_targets k) (call_controls k) (call_matrix k).
Proof.
  intros k0 Hty H. subst k0. cbn [make call_targets call_controls call_matrix call_typed] in *.
  (* Dense *) inv_bind H. destruct (N.leb_spec 64 (N.of_nat (length targets))) as [|Hlen]; [discriminate|].
    destruct (negb (m_rows M =? _) || negb (m_cols M =? _)) eqn:Esz; [discriminate|].
    apply orb_false_iff in Esz. destruct Esz as [Er Ec]. apply negb_false_iff, N.eqb_eq in Er, Ec.
    rewrite shl64_one in Er, Ec by assumption.
    apply create_ok in H. destruct H as (t & c & cv & Ht & Hc & Hv & Hd & ->).
    destruct (controls_meaning _ _ _ _ _ E Hc Hv) as (Hcv & Hcs & Hm & _).
    pose proof (vector_to_mask_u64 _ _ Hc) as Hc64. pose proof (vector_to_mask_u64 _ _ Ht) as Ht64.
    pose proof (mask_popcount _ _ Ht) as Hpc. apply vector_to_mask_ok in Ht as Ht'. destruct Ht' as (HF & HD & HT).
    constructor; cbn [g_base g_t g_c g_cv].
    + split; [now apply base_ok_intro|]. cbn. rewrite Hpc. destruct (is_sorted targets); cbn; auto.
    + assumption.
    + now apply (cs_map c cv).
    + assumption.
    + intros _ psi x. unfold gate_sem. cbn [g_base g_t g_c g_cv get_matrix m_at].
      rewrite (apply_mat_ctrls _ _ (with_values controls control_values)) by exact Hcs.
      destruct (is_sorted targets) eqn:Es.
      * rewrite (vector_to_mask_bits_eq _ _ Ht); [reflexivity|]. now apply is_sorted_incr.
      * apply transform_apply; [assumption|lia|assumption].
Qed.
Lemma make_means_CallSparse vf targets S controls control_values g : let k := CallSparse targets S controls control_values in call_typed k -> make vf k = Ok g ->
  means g (call_targets k) (call_controls k) (call_matrix k).
Proof.
  intros k0 Hty H. subst k0. cbn [make call_targets call_controls call_matrix call_typed] in *.
  (* Sparse *) inv_bind H. destruct Hty as [Hok Hr]. destruct (is_sorted targets) eqn:Es.
    + apply create_ok in H. destruct H as (t & c & cv & Ht & Hc & Hv & Hd & ->).
      destruct (controls_meaning _ _ _ _ _ E Hc Hv) as (Hcv & Hcs & Hm & _).
      pose proof (vector_to_mask_u64 _ _ Hc) as Hc64. pose proof (vector_to_mask_u64 _ _ Ht) as Ht64.
      pose proof (mask_popcount _ _ Ht) as Hpc. apply vector_to_mask_ok in Ht as Ht'. destruct Ht' as (HF & HD & HT).
      constructor; cbn [g_base g_t g_c g_cv].
      * split; [now apply base_ok_intro|]. cbn. rewrite Hpc. auto.
      * assumption.
      * now apply (cs_map c cv).
      * assumption.
      * intros _. apply sem_from; [assumption| |].
        -- apply (vector_to_mask_bits_eq _ _ Ht). now apply is_sorted_incr.
        -- intros i j Hi Hj. cbn. apply csr_dense_sum; [lia|assumption].
    + destruct ((64 <=? N.of_nat (length targets)) || _) eqn:Esz; [discriminate|].
      apply orb_false_iff in Esz. destruct Esz as [Elen _].
      apply create_ok in H. destruct H as (t & c & cv & Ht & Hc & Hv & Hd & ->).
      destruct (controls_meaning _ _ _ _ _ E Hc Hv) as (Hcv & Hcs & Hm & _).
      pose proof (vector_to_mask_u64 _ _ Hc) as Hc64. pose proof (vector_to_mask_u64 _ _ Ht) as Ht64.
      pose proof (mask_popcount _ _ Ht) as Hpc. apply vector_to_mask_ok in Ht as Ht'. destruct Ht' as (HF & HD & HT).
      set (M := transform_dense_matrix_by_order (DMat (csr_rows S) (csr_rows S) (csr_to_dense S)) targets).
      constructor; cbn [g_base g_t g_c g_cv].
      * split; [now apply base_ok_intro|]. cbn [g_base g_t g_c g_cv]. split; [cbn; rewrite Hpc; assumption|]. now apply sparse_view_ok.
      * assumption.
      * now apply (cs_map c cv).
      * assumption.
      * intros _ psi x. unfold gate_sem. cbn [g_base g_t g_c g_cv get_matrix m_at].
        rewrite (apply_mat_ctrls _ _ (with_values controls control_values)) by exact Hcs.
        rewrite (apply_mat_ext_mat _ _ _ (m_at M)).
        -- unfold M. rewrite transform_apply by (try assumption; lia). apply apply_mat_ext_mat.
           intros i j Hi Hj. cbn. apply csr_dense_sum; [lia|assumption].
        -- intros i j Hi Hj. rewrite bits_length, Hpc, <- Hr in Hi, Hj. rewrite csr_dense_sum; [|assumption|now apply sparse_view_ok].
           now apply sparse_view_sum.
Qed.
Theorem make_means vf k g : call_typed k -> make vf k = Ok g ->
  means g (call_targets k) (call_controls k) (call_matrix k).
Proof.
  destruct k; [apply make_means_CallI|apply make_means_CallGlobalPhase|apply make_means_Call1|apply make_means_CallCX|apply make_means_CallCZ|apply make_means_CallCCX|apply make_means_CallSwap|apply make_means_CallEcr|apply make_means_CallPermutation|apply make_means_CallPauli|apply make_means_CallPauliRotation|apply make_means_CallDense|apply make_means_CallSparse].
Qed.
