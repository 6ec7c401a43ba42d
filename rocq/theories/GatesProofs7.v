(** Which factory calls succeed, which throw; bounds checks of the updates. *)
From Verif Require Export GatesProofs6.
From Verif Require Import IndexProofs.
From Coq Require Import ZifyBool ZifyN ZifyNat Permutation Sorting.Sorted FunctionalExtensionality.

Lemma resize_cases cs vs0 : (exists vs, resize_and_check_control_values cs vs0 = Ok vs /\ length vs = length cs /\
    vs = match vs0 with [] => repeat 1 (length cs) | _ => vs0 end) \/
  (resize_and_check_control_values cs vs0 = Throw /\ ~ (vs0 = [] \/ length vs0 = length cs)).
Proof.
  unfold resize_and_check_control_values. destruct vs0 as [|v vs0].
  - left. rewrite repeat_length, Nat.eqb_refl. eexists. split; [reflexivity|]. now rewrite repeat_length.
  - destruct (Nat.eqb_spec (length cs) (length (v :: vs0))) as [E|E]; [left|right].
    + eexists. split; [reflexivity|]. auto.
    + split; [reflexivity|]. intros [H|H]; [discriminate|]. auto.
Qed.
Lemma values_total cs vs : length vs = length cs -> Forall (fun q => q < 64) cs -> vector_to_mask_values cs vs <> UB.
Proof.
  intros Hl HF H. destruct (forallb (fun v => v <? 2) vs) eqn:E.
  - destruct (vector_to_mask_values_ok cs vs HF Hl) as (r & Hr & _); [|congruence].
    rewrite forallb_forall in E. apply Forall_forall. intros v Hv. specialize (E v Hv). lia.
  - rewrite vector_to_mask_values_throw in H; [discriminate|assumption|assumption|]. intros HV.
    apply not_true_iff_false in E. apply E. apply forallb_forall. rewrite Forall_forall in HV. intros v Hv. specialize (HV v Hv). lia.
Qed.
Lemma mask_total l : vector_to_mask l <> UB.
Proof. destruct (vector_to_mask_cases l) as [[m ->]| ->]; discriminate. Qed.
Lemma mask_args_total vf t cs vs : t <> UB -> length vs = length cs -> order_ok vf cs -> mask_args vf t cs vs <> UB.
Proof.
  intros Ht Hl Ho. unfold mask_args. destruct vf.
  - destruct Ho as [Ho|Ho]; [discriminate|]. pose proof (values_total cs vs Hl Ho). destruct (vector_to_mask_values cs vs); cbn [bindR]; try congruence.
    destruct (vector_to_mask_cases cs) as [[m ->]| ->]; cbn [bindR]; [|discriminate]. destruct t; cbn [bindR]; congruence.
  - destruct t; cbn [bindR]; try congruence. destruct (vector_to_mask_cases cs) as [[m Hm]| ->]; cbn [bindR]; [|discriminate].
    rewrite Hm. cbn [bindR]. apply vector_to_mask_ok in Hm. destruct Hm as (HF & _). pose proof (values_total cs vs Hl HF).
    destruct (vector_to_mask_values cs vs); cbn [bindR]; congruence.
Qed.
Lemma make_base_total t c cv : make_base t c cv <> UB.
Proof. unfold make_base. destruct (_ =? _); discriminate. Qed.
Lemma create_total vf t cs vs k : t <> UB -> length vs = length cs -> order_ok vf cs -> create vf t cs vs k <> UB.
Proof.
  intros Ht Hl Ho. unfold create. pose proof (mask_args_total vf t cs vs Ht Hl Ho).
  destruct (mask_args vf t cs vs) as [[[t' c] cv]| |]; cbn [bindR]; try congruence.
  pose proof (make_base_total t' c cv). destruct (make_base t' c cv); cbn [bindR]; congruence.
Qed.
Lemma land_disjoint t c : N.land t c = 0 <-> forall i, N.testbit t i = true -> N.testbit c i = true -> False.
Proof.
  split.
  - intros H i H1 H2. assert (E : N.testbit (N.land t c) i = true) by (rewrite N.land_spec, H1, H2; reflexivity).
    rewrite H, N.bits_0 in E. discriminate.
  - intros H. apply N.bits_inj. intros i. rewrite N.land_spec, N.bits_0. destruct (N.testbit t i) eqn:E1; [|reflexivity].
    destruct (N.testbit c i) eqn:E2; [|reflexivity]. exfalso. eauto.
Qed.
Lemma args_sound ts cs vs0 vs t c cv : resize_and_check_control_values cs vs0 = Ok vs ->
  (Forall (fun q => q < 64) ts /\ NoDup ts /\ (forall i, N.testbit t i = true <-> In i ts)) ->
  vector_to_mask cs = Ok c -> vector_to_mask_values cs vs = Ok cv -> N.land t c = 0 -> valid_controls ts cs vs0.
Proof.
  intros Hr (HF & HD & HT) Hc Hv Hd.
  destruct (controls_meaning cs vs0 vs c cv Hr Hc Hv) as (_ & _ & _ & H01 & Hl & Hvs).
  apply vector_to_mask_ok in Hc. destruct Hc as (HFc & HDc & HTc). rewrite land_disjoint in Hd.
  split; [|split; [|split]].
  - apply NoDup_app_intro; try assumption. intros x H1 H2. apply (Hd x); [now apply HT|now apply HTc].
  - apply Forall_app. auto.
  - destruct Hvs as [Hvs | ->]; [left; assumption|right; assumption].
  - destruct Hvs as [-> | ->]; [constructor|assumption].
Qed.
Lemma args_complete ts cs vs0 : valid_controls ts cs vs0 ->
  exists vs c cv, resize_and_check_control_values cs vs0 = Ok vs /\ length vs = length cs /\
    vector_to_mask cs = Ok c /\ vector_to_mask_values cs vs = Ok cv /\
    (forall t, (forall i, N.testbit t i = true <-> In i ts) -> N.land t c = 0).
Proof.
  intros (HD & HF & Hl & H01). apply Forall_app in HF. destruct HF as [Ft Fc].
  assert (HDc : NoDup cs /\ NoDup ts /\ forall x, In x ts -> ~ In x cs).
  { revert HD. clear. induction ts as [|t ts IH]; simpl; intros H; [split; [assumption|]; split; [constructor|intros ? []]|].
    inversion H; subst. destruct (IH H3) as (H4 & H5 & H6). split; [assumption|]. split.
    - constructor; [|assumption]. intros E. apply H2, in_or_app. auto.
    - intros x [-> |Hx]; [|auto]. intros E. apply H2, in_or_app. auto. }
  destruct HDc as (HDc & HDt & Hdj).
  destruct (resize_cases cs vs0) as [(vs & Hr & Hlv & Evs)|[_ Hx]]; [|contradiction].
  destruct (proj2 (vector_to_mask_accepts cs) (conj Fc HDc)) as [c Hc].
  destruct (vector_to_mask_values_ok cs vs Fc Hlv) as (cv & Hcv & _).
  { destruct vs0 as [|v vs0]; subst vs.
    - apply Forall_forall. intros v Hv. apply repeat_spec in Hv. lia.
    - eapply Forall_impl; [|exact H01]. simpl. intros; lia. }
  exists vs, c, cv. repeat (split; [assumption|]). intros t Ht. apply land_disjoint. intros i H1 H2.
  apply vector_to_mask_ok in Hc. destruct Hc as (_ & _ & Hc). apply Ht in H1. apply Hc in H2. exact (Hdj i H1 H2).
Qed.
Lemma mask_args_eval vf t cs vs c cv : vector_to_mask cs = Ok c -> vector_to_mask_values cs vs = Ok cv ->
  mask_args vf (Ok t) cs vs = Ok (t, c, cv).
Proof. intros H1 H2. unfold mask_args. rewrite H1, H2. destruct vf; reflexivity. Qed.
Lemma create_eval vf t cs vs c cv k : vector_to_mask cs = Ok c -> vector_to_mask_values cs vs = Ok cv -> N.land t c = 0 ->
  create vf (Ok t) cs vs k = Ok (k (GBase t c cv)).
Proof.
  intros H1 H2 H3. unfold create. rewrite (mask_args_eval vf t cs vs c cv H1 H2). cbn [bindR]. unfold make_base. rewrite H3. reflexivity.
Qed.
Lemma valid_targets ts cs vs : valid_controls ts cs vs -> exists t, vector_to_mask ts = Ok t /\ forall i, N.testbit t i = true <-> In i ts.
Proof.
  intros (HD & HF & _). apply Forall_app in HF. destruct HF as [Ft _].
  assert (HDt : NoDup ts).
  { revert HD. clear. induction ts as [|t ts IH]; simpl; intros H; [constructor|]. inversion H; subst. constructor; auto.
    intros E. apply H2, in_or_app. auto. }
  destruct (proj2 (vector_to_mask_accepts ts) (conj Ft HDt)) as [t Ht]. exists t. split; [assumption|].
  apply vector_to_mask_ok in Ht. tauto.
Qed.
Lemma valid_create vf ts cs vs0 k : valid_controls ts cs vs0 ->
  exists b, (vs <- resize_and_check_control_values cs vs0 ;; create vf (vector_to_mask ts) cs vs k) = Ok (k b).
Proof.
  intros H. destruct (valid_targets _ _ _ H) as (t & Ht & HT). destruct (args_complete _ _ _ H) as (vs & c & cv & Hr & _ & Hc & Hv & Hd).
  exists (GBase t c cv). rewrite Hr. cbn [bindR]. rewrite Ht. apply create_eval; auto.
Qed.
Lemma valid_swap2 a b cs vs : valid_controls [a; b] cs vs -> valid_controls [b; a] cs vs.
Proof.
  intros (HD & HF & H). assert (P : Permutation ([a; b] ++ cs) ([b; a] ++ cs)) by (simpl; apply perm_swap).
  split; [eapply Permutation_NoDup; eassumption|]. split; [|assumption].
  rewrite Forall_forall in *. intros x Hx. apply HF. eapply Permutation_in; [symmetry; exact P|exact Hx].
Qed.

Lemma bits_of_mask t : t < two64 -> Forall (fun q => q < 64) (bits t) /\ NoDup (bits t) /\ (forall i, N.testbit t i = true <-> In i (bits t)).
Proof.
  intros H. split; [|split; [apply bits_NoDup|intros i; now rewrite in_bits]]. apply Forall_forall. intros q Hq. apply in_bits in Hq.
  destruct (N.ltb_spec q 64); [assumption|]. unfold two64 in H. rewrite (testbit_high t 64 q H) in Hq by assumption. discriminate.
Qed.
Lemma lor_lt64 a b : a < two64 -> b < two64 -> N.lor a b < two64.
Proof. apply lor_two64. Qed.

Lemma make_complete vf k : call_data k -> call_valid k -> exists g, make vf k = Ok g.
Proof.
  intros Hty Hv. destruct k; cbn [make call_valid call_data] in *.
  - eauto.
  - destruct (args_complete _ _ _ Hv) as (vs & c & cv & Hr & _ & Hc & Hcv & Hd). rewrite Hr. cbn [bindR].
    assert (H0 : N.land 0 c = 0) by reflexivity. rewrite (create_eval vf 0 _ _ c cv) by assumption. eauto.
  - destruct (valid_create vf _ _ _ (EStd k) Hv) as [b Hb]. eauto.
  - destruct (valid_create vf _ _ _ (EStd GX) Hv) as [b Hb]. eauto.
  - destruct (valid_create vf _ _ _ (EStd GZ) Hv) as [b Hb]. eauto.
  - destruct (valid_create vf _ _ _ (EStd GX) Hv) as [b Hb]. eauto.
  - destruct (valid_create vf _ _ _ ESwap Hv) as [b Hb]. eauto.
  - apply valid_swap2 in Hv. destruct (valid_targets _ _ _ Hv) as (t & Ht & HT).
    destruct (args_complete _ _ _ Hv) as (vs & c & cv & Hr & _ & Hc & Hcv & Hd). rewrite Hr. cbn [bindR].
    rewrite Ht, (mask_args_eval vf t _ _ c cv) by assumption. cbn [bindR].
    apply vector_to_mask_ok in Ht. destruct Ht as (HF & _). inversion HF as [|? ? H1 H2]; subst. inversion H2; subst.
    destruct (proj2 (vector_to_mask_accepts [physical_control])) as [m1 ->]; [split; [now constructor|repeat constructor; intros []]|].
    destruct (proj2 (vector_to_mask_accepts [physical_target])) as [m2 ->]; [split; [now constructor|repeat constructor; intros []]|].
    cbn [bindR]. unfold make_base. rewrite Hd by assumption. rewrite N.eqb_refl. cbn [bindR]. eauto.
  - destruct Hv as (Hl & HD & HF). replace (64 <=? N.of_nat (length dst)) with false by lia.
    pose proof (make_permutation_impl_ok dst (conj HD HF) Hl) as Hm. pose proof Hm as Hm'. unfold make_permutation_impl in Hm'.
    destruct (vector_to_mask dst) as [t| |]; cbn [bindR] in *; try discriminate.
    replace (64 <=? N.of_nat (length dst)) with false in Hm' by lia. rewrite bound_value in * by lia.
    destruct (t =? 2 ^ N.of_nat (length dst) - 1) eqn:Et; cbn [negb] in Hm'; [|discriminate]. apply N.eqb_eq in Et.
    destruct (N.eqb_spec (N.of_nat (length dst)) 0) as [E|E].
    + replace (t =? 0) with true by (rewrite Et, E; reflexivity). cbn [negb]. eauto.
    + rewrite Et, N.eqb_refl. cbn [negb]. eauto.
  - destruct Hty as [H1 H2]. pose proof (lor_lt64 _ _ H1 H2) as H12. destruct (args_complete _ _ _ Hv) as (vs & c & cv & Hr & _ & Hc & Hcv & Hd).
    rewrite Hr. cbn [bindR]. rewrite (mask_args_eval vf 0 _ _ c cv) by assumption. cbn [bindR]. unfold make_pauli_base.
    rewrite pauli_mask by assumption. cbn [bindR]. unfold make_base. rewrite Hd by (intros i; now rewrite in_bits). rewrite N.eqb_refl. cbn [bindR]. eauto.
  - destruct Hty as [H1 H2]. pose proof (lor_lt64 _ _ H1 H2) as H12. destruct (args_complete _ _ _ Hv) as (vs & c & cv & Hr & _ & Hc & Hcv & Hd).
    rewrite Hr. cbn [bindR]. rewrite (mask_args_eval vf 0 _ _ c cv) by assumption. cbn [bindR]. unfold make_pauli_base.
    rewrite pauli_mask by assumption. cbn [bindR]. unfold make_base. rewrite Hd by (intros i; now rewrite in_bits). rewrite N.eqb_refl. cbn [bindR]. eauto.
  - destruct Hv as (Hv & Hl & Hr1 & Hr2). pose proof (valid_targets _ _ _ Hv) as (t & Ht & HT).
    destruct (args_complete _ _ _ Hv) as (vs & c & cv & Hr & _ & Hc & Hcv & Hd). rewrite Hr. cbn [bindR].
    replace (64 <=? N.of_nat (length targets)) with false by lia. rewrite shl64_one by lia. rewrite Hr1, Hr2, N.eqb_refl. cbn [negb orb].
    rewrite Ht, (create_eval vf t _ _ c cv) by auto. eauto.
  - destruct Hv as (Hv & Hl & Hr1). pose proof (valid_targets _ _ _ Hv) as (t & Ht & HT).
    destruct (args_complete _ _ _ Hv) as (vs & c & cv & Hr & _ & Hc & Hcv & Hd). rewrite Hr. cbn [bindR].
    replace (64 <=? N.of_nat (length targets)) with false by lia. rewrite shl64_one by lia. rewrite Hr1, N.eqb_refl. cbn [negb orb].
    rewrite Ht. destruct (is_sorted targets); rewrite (create_eval vf t _ _ c cv) by auto; eauto.
Qed.
Lemma make_sound vf k g : call_data k -> size_checked k -> make vf k = Ok g -> call_valid k.
Proof.
  intros Hty Hsz H. destruct k; cbn [make call_valid call_data size_checked] in *.
  - exact I.
  - inv_bind H. apply create_ok in H. destruct H as (t & c & cv & [= <-] & Hc & Hv & Hd & _).
    apply (args_sound [] controls control_values v 0 c cv); try assumption. split; [constructor|]. split; [constructor|].
    intros i. rewrite N.bits_0. split; [discriminate|intros []].
  - inv_bind H. apply create_ok in H. destruct H as (t & c & cv & Ht & Hc & Hv & Hd & _). apply vector_to_mask_ok in Ht.
    eapply args_sound; eassumption.
  - apply create_ok in H. destruct H as (t & c & cv & Ht & Hc & Hv & Hd & _). apply vector_to_mask_ok in Ht.
    eapply (args_sound _ _ [] [1]); try eassumption. reflexivity.
  - apply create_ok in H. destruct H as (t & c & cv & Ht & Hc & Hv & Hd & _). apply vector_to_mask_ok in Ht.
    eapply (args_sound _ _ [] [1]); try eassumption. reflexivity.
  - apply create_ok in H. destruct H as (t & c & cv & Ht & Hc & Hv & Hd & _). apply vector_to_mask_ok in Ht.
    eapply (args_sound _ _ [] [1; 1]); try eassumption. reflexivity.
  - inv_bind H. apply create_ok in H. destruct H as (t & c & cv & Ht & Hc & Hv & Hd & _). apply vector_to_mask_ok in Ht.
    eapply args_sound; eassumption.
  - inv_bind H. inv_bind H. destruct v0 as [[t c] cv]. apply mask_args_ok in E0. destruct E0 as (Ht & Hc & Hv).
    inv_bind H. inv_bind H. inv_bind H. apply make_base_ok in E2. destruct E2 as [Hd _]. apply vector_to_mask_ok in Ht.
    apply valid_swap2. eapply args_sound; eassumption.
  - destruct (64 <=? N.of_nat (length dst)) eqn:E64; [discriminate|]. inv_bind H. split; [lia|].
    destruct (v =? _) eqn:Ev; cbn [negb] in H; [|discriminate]. apply N.eqb_eq in Ev.
    apply vector_to_mask_ok in E. destruct E as (_ & HD & HT). split; [assumption|]. apply Forall_forall. intros q Hq. apply HT in Hq.
    rewrite Ev in Hq. destruct (N.eqb_spec (N.of_nat (length dst)) 0) as [E0|E0].
    + rewrite N.bits_0 in Hq. discriminate.
    + rewrite bound_value in Hq by lia. rewrite <- in_bits, bits_ones, in_seqN in Hq. assumption.
  - destruct Hty as [H1 H2]. pose proof (lor_lt64 _ _ H1 H2) as H12. inv_bind H. inv_bind H. destruct v0 as [[t c] cv].
    apply mask_args_ok in E0. destruct E0 as (_ & Hc & Hv). inv_bind H. unfold make_pauli_base in E0. rewrite pauli_mask in E0 by assumption.
    cbn [bindR] in E0. apply make_base_ok in E0. destruct E0 as [Hd _]. eapply args_sound; try eassumption. now apply bits_of_mask.
  - destruct Hty as [H1 H2]. pose proof (lor_lt64 _ _ H1 H2) as H12. inv_bind H. inv_bind H. destruct v0 as [[t c] cv].
    apply mask_args_ok in E0. destruct E0 as (_ & Hc & Hv). inv_bind H. unfold make_pauli_base in E0. rewrite pauli_mask in E0 by assumption.
    cbn [bindR] in E0. apply make_base_ok in E0. destruct E0 as [Hd _]. eapply args_sound; try eassumption. now apply bits_of_mask.
  - inv_bind H. destruct (64 <=? N.of_nat (length targets)) eqn:E64; [discriminate|].
    rewrite shl64_one in H by lia.
    destruct (m_rows M =? _) eqn:E1; [|discriminate]. destruct (m_cols M =? _) eqn:E2; [|discriminate]. cbn [negb orb] in H.
    apply create_ok in H. destruct H as (t & c & cv & Ht & Hc & Hv & Hd & _). apply vector_to_mask_ok in Ht.
    split; [eapply args_sound; eassumption|]. split; [lia|]. split; lia.
  - destruct Hsz.
Qed.
Lemma pauli_base_total p c cv : N.lor (p_bf p) (p_pf p) < two64 -> make_pauli_base p c cv <> UB.
Proof. intros H. unfold make_pauli_base. rewrite pauli_mask by assumption. cbn [bindR]. apply make_base_total. Qed.
Ltac total e H := let E := fresh in pose proof H as E; destruct e; cbn [bindR]; try congruence; clear E.
Lemma make_total vf k : call_data k -> size_checked k -> few_targets k -> order_ok vf (call_control_list k) -> make vf k <> UB.
Proof.
  intros Hty Hsz Hfew Ho.
  assert (Hres : forall t cs vs0 kk, t <> UB -> order_ok vf cs ->
    (vs <- resize_and_check_control_values cs vs0 ;; create vf t cs vs kk) <> UB).
  { intros t cs vs0 kk Ht Hoc. destruct (resize_cases cs vs0) as [(vs & -> & Hl & _)|[-> _]]; cbn [bindR]; [|discriminate].
    now apply create_total. }
  destruct k; cbn [make call_data size_checked few_targets call_control_list] in *;
    try solve [discriminate | apply Hres; [apply mask_total || discriminate|assumption] | apply create_total; [apply mask_total|reflexivity|assumption]].
  - destruct (resize_cases controls control_values) as [(vs & -> & Hl & _)|[-> _]]; cbn [bindR]; [|discriminate].
    pose proof (mask_args_total vf (vector_to_mask [physical_target; physical_control]) controls vs (mask_total _) Hl Ho).
    destruct (mask_args _ _ _ _) as [[[t c] cv]| |]; cbn [bindR]; try congruence.
    pose proof (mask_total [physical_control]). destruct (vector_to_mask [physical_control]); cbn [bindR]; try congruence.
    pose proof (mask_total [physical_target]). destruct (vector_to_mask [physical_target]); cbn [bindR]; try congruence.
    pose proof (make_base_total t c cv). destruct (make_base t c cv); cbn [bindR]; congruence.
  - destruct (64 <=? N.of_nat (length dst)) eqn:E64; [discriminate|].
    pose proof (mask_total dst). unfold make_permutation_impl. rewrite E64. destruct (vector_to_mask dst); cbn [bindR]; try congruence.
    destruct (negb _); [discriminate|]. destruct (negb _); [discriminate|].
    match goal with |- context [make_base ?v 0 0] => pose proof (make_base_total v 0 0); destruct (make_base v 0 0) end; cbn [bindR]; congruence.
  - destruct Hty as [H1 H2]. pose proof (lor_lt64 _ _ H1 H2) as H12.
    destruct (resize_cases controls control_values) as [(vs & -> & Hl & _)|[-> _]]; cbn [bindR]; [|discriminate].
    assert (H0 : @Ok N 0 <> UB) by discriminate. pose proof (mask_args_total vf (Ok 0) controls vs H0 Hl Ho).
    destruct (mask_args _ _ _ _) as [[[t c] cv]| |]; cbn [bindR]; try congruence.
    pose proof (pauli_base_total p c cv H12). destruct (make_pauli_base p c cv); cbn [bindR]; congruence.
  - destruct Hty as [H1 H2]. pose proof (lor_lt64 _ _ H1 H2) as H12.
    destruct (resize_cases controls control_values) as [(vs & -> & Hl & _)|[-> _]]; cbn [bindR]; [|discriminate].
    assert (H0 : @Ok N 0 <> UB) by discriminate. pose proof (mask_args_total vf (Ok 0) controls vs H0 Hl Ho).
    destruct (mask_args _ _ _ _) as [[[t c] cv]| |]; cbn [bindR]; try congruence.
    pose proof (pauli_base_total p c cv H12). destruct (make_pauli_base p c cv); cbn [bindR]; congruence.
  - destruct (resize_cases controls control_values) as [(vs & -> & Hl & _)|[-> _]]; cbn [bindR]; [|discriminate].
    replace (64 <=? N.of_nat (length targets)) with false by lia. destruct (_ || _); [discriminate|].
    apply create_total; [apply mask_total|assumption|assumption].
  - destruct Hsz.
Qed.
Lemma make_rejects vf k : call_data k -> size_checked k -> few_targets k -> order_ok vf (call_control_list k) ->
  ~ call_valid k -> make vf k = Throw.
Proof.
  intros H1 H2 H3 H4 H5. pose proof (make_total vf k H1 H2 H3 H4). destruct (make vf k) eqn:E; [|reflexivity|congruence].
  exfalso. apply H5. eapply make_sound; eassumption.
Qed.
Lemma sparse_rejects vf ts Sp cs vs : is_sorted ts = true -> order_ok vf cs -> ~ valid_controls ts cs vs ->
  make vf (CallSparse ts Sp cs vs) = Throw.
Proof.
  intros Hs Ho Hnv. cbn [make]. rewrite Hs. destruct (resize_cases cs vs) as [(vs' & Hr & Hl & _)|[-> _]]; [|reflexivity].
  rewrite Hr. cbn [bindR]. pose proof (create_total vf (vector_to_mask ts) cs vs' (fun b => ESparse b Sp) (mask_total _) Hl Ho) as HU.
  destruct (create _ _ _ _ _) eqn:E; [|reflexivity|congruence]. exfalso. apply Hnv. apply create_ok in E.
  destruct E as (t & c & cv & Ht & Hc & Hv & Hd & _). apply vector_to_mask_ok in Ht. eapply args_sound; eassumption.
Qed.

(** ** Bounds *)
Definition bounds_checked (g : egate) : Prop :=
  match g with EI | EPauli _ _ | EPauliRotation _ _ _ => False | _ => True end.
Lemma update_out_of_range n D L g : n < 64 -> bounds_checked g -> ~ gate_fits n g -> update_plan n D L g = Throw.
Proof.
  intros Hn Hb Hf. unfold update_plan.
  assert (E : within_bounds n (g_base g) = false).
  { apply not_true_is_false. intros H. apply Hf. now apply within_bounds_iff in H. }
  destruct g; try (now destruct Hb); rewrite E; reflexivity.
Qed.
Lemma call_out_of_range vf k g n D L : call_typed k -> make vf k = Ok g -> call_checked k -> n < 64 ->
  ~ Forall (fun q => q < n) (call_operands k) -> update_plan n D L g = Throw.
Proof.
  intros Hty H Hc Hn HF. pose proof (make_means vf k g Hty H) as Hm.
  apply update_out_of_range; [assumption| |].
  - destruct k; cbn [make call_checked] in *; try (now destruct Hc);
      try solve [inv_bind H; apply create_ok in H; destruct H as (? & ? & ? & _ & _ & _ & _ & ->); exact I
                |apply create_ok in H; destruct H as (? & ? & ? & _ & _ & _ & _ & ->); exact I].
    + injection H as <-. exfalso. apply HF. constructor.
    + inv_bind H. inv_bind H. destruct v0 as [[t c] cv]. inv_bind H. inv_bind H. inv_bind H. injection H as <-. exact I.
    + destruct (64 <=? _); [discriminate|]. inv_bind H. destruct (negb _); [discriminate|]. unfold make_permutation_impl in H.
      inv_bind H. destruct (64 <=? _); [discriminate|]. destruct (negb _); [discriminate|]. inv_bind H. injection H as <-. exact I.
    + inv_bind H. destruct (64 <=? _); [discriminate|]. destruct (_ || _); [discriminate|].
      apply create_ok in H; destruct H as (? & ? & ? & _ & _ & _ & _ & ->); exact I.
    + inv_bind H. destruct (is_sorted _); [|destruct (_ || _); [discriminate|]];
      apply create_ok in H; destruct H as (? & ? & ? & _ & _ & _ & _ & ->); exact I.
  - intros Hfit. apply HF. eapply fits_means; eassumption.
Qed.
