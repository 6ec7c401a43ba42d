From Verif Require Export ReportSpec CircuitProofs3 MergeProofs5.
From Verif Require Import GatesProofs9 JsonProofs2.
From Coq Require Import ZifyBool ZifyN ZifyNat Permutation Sorted.

Definition base_report (b : base) : report :=
  Report (Ok (mask_to_vector (g_t b))) (Ok (mask_to_vector (g_c b))) (Ok (mask_to_values (g_c b) (g_cv b))) (mask_to_vector (base_operands b)).
Ltac same_text := match goal with |- ?x = ?x => exact eq_refl end.   (* reflexivity would evaluate the masks when they differ *)
Lemma elem_report t g : gate_report (CElem (t, g)) = base_report (g_base g).
Proof. unfold gate_report, base_report, c_target_list, c_control_list, c_control_values, c_operand_list, operand_mask, gate_target_list, gate_control_list, gate_control_values. same_text. Qed.
Lemma rot_report t k b c : param_report (PRot t k b c) = base_report b.
Proof. unfold param_report, base_report, p_target_list, p_control_list, p_control_values, p_operand_list, poperand_mask. same_text. Qed.
Lemma pauli_rot_report t b p c : param_report (PPauliRotation t b p c) = base_report b.
Proof. unfold param_report, base_report, p_target_list, p_control_list, p_control_values, p_operand_list, poperand_mask. same_text. Qed.
Lemma base_tells b ts cs r : (base_ok b) -> (forall i, N.testbit (g_t b) i = true <-> In i ts) -> NoDup ts ->
  (forall p, In p (ctrls (g_c b) (g_cv b)) <-> In p cs) -> NoDup cs ->
  r = base_report b ->
  tells r ts cs.
Proof.
  intros (Hd & Hcv & Ht & Hc) H1 Hn1 H2 Hn2 ->. unfold base_report, base_operands. rewrite (mask_to_vector_bits (g_t b)), (mask_to_vector_bits (g_c b)), (mask_to_vector_bits (N.lor _ _)), mask_to_values_bits by (assumption || now apply lor_u64).
  exists (bits (g_t b)), (bits (g_c b)), (map (fun i => N.b2n (N.testbit (g_cv b) i)) (bits (g_c b))).
  cbn [r_targets r_controls r_values r_operands]. repeat (split; [solve [reflexivity|apply bits_incr|now rewrite map_length]|]).
  split; [apply NoDup_Permutation; [apply bits_NoDup|assumption|]; intros x; rewrite in_bits; apply H1|]. split; [apply bits_incr|].
  split; [|split; [now rewrite map_length|split; [apply bits_incr|]]].
  - replace (combine _ _) with (map (fun p : N * bool => (fst p, N.b2n (snd p))) (ctrls (g_c b) (g_cv b))).
    + apply Permutation_map. apply NoDup_Permutation; [|assumption|exact H2].
      unfold ctrls. apply FinFun.Injective_map_NoDup; [|apply bits_NoDup]. intros x y E. congruence.
    + rewrite ctrls_combine. induction (bits (g_c b)); cbn; congruence.
  - apply NoDup_Permutation; [apply bits_NoDup| |].
    + apply NoDup_app_intro; try apply bits_NoDup. intros i Hi Hj. apply in_bits in Hi, Hj.
      assert (E : N.testbit (N.land (g_t b) (g_c b)) i = true) by now rewrite N.land_spec, Hi, Hj. rewrite Hd, N.bits_0 in E. discriminate.
    + intros x. rewrite in_app_iff, !in_bits, N.lor_spec, orb_true_iff. reflexivity.
Qed.
Lemma combine_NoDup {A B} (l : list A) : forall (l' : list B), NoDup l -> NoDup (combine l l').
Proof.
  induction l as [|a l IH]; intros [|b l'] H; try constructor; inversion H; subst; [|now apply IH]. intros Hi. apply in_combine_l in Hi. contradiction.
Qed.
Lemma values_NoDup cs c vs : vector_to_mask cs = Ok c -> NoDup (with_values cs vs).
Proof. intros H. apply vector_to_mask_ok in H. apply combine_NoDup. tauto. Qed.
Lemma call_controls_NoDup vf k g : make vf k = Ok g -> NoDup (call_controls k).
Proof.
  intros H. destruct k; cbn [call_controls make] in *; try solve [constructor].
  - inv_bind H. apply create_ok in H. destruct H as (t & c & cv & _ & Hc & _). exact (values_NoDup _ _ _ Hc).
  - inv_bind H. apply create_ok in H. destruct H as (t & c & cv & _ & Hc & _). exact (values_NoDup _ _ _ Hc).
  - repeat constructor; intros [].
  - repeat constructor; intros [].
  - apply create_ok in H. destruct H as (t & c & cv & _ & Hc & _). exact (values_NoDup [control1; control2] c [1; 1] Hc).
  - inv_bind H. apply create_ok in H. destruct H as (t & c & cv & _ & Hc & _). exact (values_NoDup _ _ _ Hc).
  - inv_bind H. inv_bind H. destruct v0 as [[t c] cv]. apply mask_args_ok in E0. destruct E0 as (_ & Hc & _). exact (values_NoDup _ _ _ Hc).
  - inv_bind H. inv_bind H. destruct v0 as [[t c] cv]. apply mask_args_ok in E0. destruct E0 as (_ & Hc & _). exact (values_NoDup _ _ _ Hc).
  - inv_bind H. inv_bind H. destruct v0 as [[t c] cv]. apply mask_args_ok in E0. destruct E0 as (_ & Hc & _). exact (values_NoDup _ _ _ Hc).
  - inv_bind H. destruct (64 <=? _); [discriminate|]. destruct (_ || _); [discriminate|].
    apply create_ok in H. destruct H as (t & c & cv & _ & Hc & _). exact (values_NoDup _ _ _ Hc).
  - inv_bind H. destruct (is_sorted targets).
    + apply create_ok in H. destruct H as (t & c & cv & _ & Hc & _). exact (values_NoDup _ _ _ Hc).
    + destruct (_ || _); [discriminate|]. apply create_ok in H. destruct H as (t & c & cv & _ & Hc & _). exact (values_NoDup _ _ _ Hc).
Qed.

Lemma factory_tells vf k g t : call_typed k -> make vf k = Ok g -> tells (gate_report (CElem (t, g))) (call_targets k) (call_controls k).
Proof.
  intros Hty H. pose proof (make_means vf k g Hty H) as Hm.
  apply (base_tells (g_base g)); [exact (proj1 (means_wf _ _ _ _ Hm))|exact (means_t _ _ _ _ Hm)|exact (call_targets_NoDup vf k g Hty H)|exact (means_cv _ _ _ _ Hm)
    |exact (call_controls_NoDup vf k g H)|apply elem_report].
Qed.
Lemma param_tells vf k g v : pcall_typed k -> make_param vf k = Ok g -> tells (param_report g) (call_targets (pcall_at k v)) (call_controls (pcall_at k v)).
Proof.
  intros Hty H. destruct (make_param_at vf k g v H) as [Hm Hp].
  pose proof (factory_tells vf _ _ true (pcall_typed_at k v Hty) Hm) as Ht. rewrite elem_report in Ht.
  destruct g as [t r b c|t b p c|t d gs]; [rewrite rot_report|rewrite pauli_rot_report|contradiction]; exact Ht.
Qed.
Lemma measurement_tells q bit reset g : make_measurement q bit reset = Ok g -> tells (gate_report g) [q] [].
Proof.
  intros H. apply measurement_mask in H. destruct H as [H ->].
  apply (base_tells (GBase (2 ^ q) 0 0)).
  - unfold base_ok. cbn [g_t g_c g_cv]. rewrite N.land_0_r. repeat split. now apply N.pow_lt_mono_r.
  - cbn [g_t]. intros i. rewrite N.pow2_bits_eqb. split; [intros E; left; lia|intros [E|[]]; lia].
  - repeat constructor. intros [].
  - cbn [g_c g_cv]. change (ctrls 0 0) with (@nil (N * bool)). reflexivity.
  - constructor.
  - unfold base_report, base_operands. cbn [g_t g_c g_cv]. rewrite N.lor_0_r. reflexivity.
Qed.
Lemma Forall2_left {X Y} (P : X -> Y -> Prop) l l' x : Forall2 P l l' -> In x l -> exists y, In y l' /\ P x y.
Proof. induction 1 as [|a b l l' H HF IH]; [intros []|]. intros [<- | Hx]; [exists b; split; [now left|exact H]|]. destruct (IH Hx) as (y & Hy & Hp). exists y. split; [now right|exact Hp]. Qed.
Lemma fold_lor_u64 {A} (f : A -> N) l : forall a, a < two64 -> Forall (fun g => f g < two64) l -> fold_left (fun m g => N.lor m (f g)) l a < two64.
Proof. induction l as [|g l IH]; intros a Ha H; [exact Ha|]. inversion H; subst. cbn [fold_left]. apply IH; [now apply lor_u64|assumption]. Qed.
Lemma stands_u64 g s : stands g s -> operand_mask g < two64.
Proof.
  revert s. induction g as [[t g]|t b r|t d gs IH] using cgate_ind'; intros s H.
  - inversion H as [? ? ? Ha|? ? ? ? Hm|]; subst; [|apply measurement_mask in Hm; destruct Hm; discriminate].
    destruct (acts_spec g s Ha) as (qs & f & _ & [(_ & _ & Ht & Hc) _] & _). cbn [operand_mask]. now apply lor_u64.
  - inversion H as [|q bit reset ? Hm|]; subst. apply measurement_mask in Hm. destruct Hm as [Hq [= -> _ _]]. cbn [operand_mask]. now apply N.pow_lt_mono_r.
  - inversion H as [|? ? ? ? Hm|? ? ? ss Hd Hl H2]; subst; [apply measurement_mask in Hm; destruct Hm; discriminate|].
    cbn [operand_mask]. apply fold_lor_u64; [reflexivity|]. clear -IH H2. induction H2 as [|a b gs ss H H2 IH2]; [constructor|]. inversion IH; subst. constructor; eauto.
Qed.
Lemma pstands_u64 g s : pstands g s -> match g with inl g => operand_mask g | inr g => poperand_mask g end < two64.
Proof.
  destruct g as [g|g]; intros H; [inversion H; subst; eapply stands_u64; eassumption|]. revert s H. induction g as [t k b c|t b p c|t d gs IH] using pgate_ind'; intros s H.
  - pose proof (pacts_at _ _ 0 H I) as Ha. destruct (acts_spec _ _ Ha) as (qs & f & _ & [(_ & _ & Ht & Hc) _] & _). cbn [poperand_mask]. now apply lor_u64.
  - pose proof (pacts_at _ _ 0 H I) as Ha. destruct (acts_spec _ _ Ha) as (qs & f & _ & [(_ & _ & Ht & Hc) _] & _). cbn [poperand_mask]. now apply lor_u64.
  - apply pstands_choice_inv in H. destruct H as (ss & Hd & Hl & H2 & ->). cbn [poperand_mask].
    apply (fold_lor_u64 (fun g => match g with inl g => operand_mask g | inr g => poperand_mask g end)); [reflexivity|].
    rewrite Forall_forall in IH. apply Forall_forall. intros x Hx. destruct (Forall2_left _ _ _ x H2 Hx) as (y & _ & Hxy).
    destruct x as [g|g]; [inversion Hxy; subst; eapply stands_u64; eassumption|]. exact (IH (inr g) Hx y Hxy).
Qed.
Lemma operands_told g s : stands g s -> StronglySorted N.lt (r_operands (gate_report g)) /\ (forall q, In q (r_operands (gate_report g)) <-> In q (operands s)).
Proof.
  intros H. cbn [gate_report r_operands]. unfold c_operand_list. rewrite mask_to_vector_bits by (eapply stands_u64; eassumption). split; [apply bits_incr|].
  intros q. rewrite in_bits. now apply stands_mask.
Qed.
Lemma param_operands_told g s v : pstands (inr g) s ->
  StronglySorted N.lt (r_operands (param_report g)) /\ (forall q, In q (r_operands (param_report g)) <-> In q (operands (s v))).
Proof.
  intros H. cbn [param_report r_operands]. unfold p_operand_list. rewrite mask_to_vector_bits by (apply (pstands_u64 (inr g) s H)). split; [apply bits_incr|].
  intros q. rewrite in_bits. now apply pstands_mask.
Qed.
Lemma probabilistic_silent t d gs : let r := gate_report (CProb t d gs) in r_targets r = Throw /\ r_controls r = Throw /\ r_values r = Throw.
Proof. repeat split. Qed.

(** ** Inverses *)
Lemma flatten_inverted g g' p : c_inverse g = Ok g' -> flatten_probabilistic_gate p g' = Ok [(p, g')].
Proof.
  destruct g as [[t g]|t b r|t d gs]; cbn [c_inverse]; intros H; [inv_bind H; injection H as <-; reflexivity|discriminate|].
  inv_bind H. inv_bind H. injection H as <-. reflexivity.
Qed.
Lemma mapR_Forall2 {A B} (f : A -> res B) l : forall l', Circuit.mapR f l = Ok l' -> Forall2 (fun a b => f a = Ok b) l l'.
Proof.
  induction l as [|a l IH]; cbn [Circuit.mapR]; intros l' H; [injection H as <-; constructor|]. inv_bind H. inv_bind H. injection H as <-.
  constructor; [assumption|]. now apply IH.
Qed.
Lemma flatten_all_singles {G} (flt : R -> G -> res (list (R * G))) gs : forall d l, length d = length gs -> Forall (fun g => forall p, flt p g = Ok [(p, g)]) gs ->
  flatten_all flt d gs = Ok l -> map snd l = gs.
Proof.
  induction gs as [|g gs IH]; intros [|p d] l Hl H E; try discriminate; [injection E as <-; reflexivity|]. inversion H as [|? ? Hg HF]; subst.
  cbn [flatten_all] in E. rewrite Hg in E. cbn [bindR] in E. inv_bind E. injection E as <-. cbn [app map snd]. f_equal. eapply IH; [|exact HF|eassumption]. now injection Hl.
Qed.
Lemma impl_same {G} (flt : R -> G -> res (list (R * G))) d gs x : Forall (fun g => forall p, flt p g = Ok [(p, g)]) gs ->
  probabilistic_impl flt d gs = Ok x -> snd x = gs.
Proof.
  intros HF H. unfold probabilistic_impl in H. destruct (length d =? 0)%nat; [discriminate|]. destruct (Nat.eqb_spec (length d) (length gs)) as [Hl|]; [|discriminate].
  cbn [negb] in H. destruct (negb _); [discriminate|]. inv_bind H. destruct (sum_is_one _); [|discriminate]. injection H as <-. cbn [snd].
  eapply flatten_all_singles; eassumption.
Qed.
Lemma fold_lor_same {A} (f : A -> N) (l l' : list A) : Forall2 (fun a b => f b = f a) l l' -> forall a, fold_left (fun m g => N.lor m (f g)) l' a = fold_left (fun m g => N.lor m (f g)) l a.
Proof. induction 1 as [|x y l l' H HF IH]; intros a; [reflexivity|]. cbn [fold_left]. rewrite H. apply IH. Qed.
Lemma inverse_mask g s g' : stands g s -> c_inverse g = Ok g' -> operand_mask g' = operand_mask g.
Proof.
  revert s g'. induction g as [[t g]|t b r|t d gs IH] using cgate_ind'; intros s g' H Hi; cbn [c_inverse] in Hi.
  - inv_bind Hi. injection Hi as <-. inversion H as [? ? ? Ha|? ? ? ? Hm|]; subst; [|apply measurement_mask in Hm; destruct Hm; discriminate].
    destruct (acts_spec g s Ha) as (qs & f & _ & Hw & _). cbn [operand_mask]. destruct (inverse_wf _ _ Hw E) as [_ ->]. reflexivity.
  - discriminate.
  - inv_bind Hi. inv_bind Hi. injection Hi as <-. apply mapR_Forall2 in E. apply impl_same in E0.
    + cbn [operand_mask]. rewrite E0. apply fold_lor_same. clear E0.
      inversion H as [|? ? ? ? Hm|? ? ? ss Hd Hl H2]; subst; [apply measurement_mask in Hm; destruct Hm; discriminate|]. clear H Hl Hd v0.
      revert ss H2. induction E as [|a b gs gs' Hab E IHE]; intros ss H2; [constructor|]. inversion H2; subst. inversion IH; subst. constructor; eauto.
    + clear -E. induction E as [|a b gs gs' Hab E IHE]; constructor; [|assumption]. intros p. eapply flatten_inverted; eassumption.
Qed.
Lemma inverse_report g s g' : stands g s -> c_inverse g = Ok g' -> gate_report g' = gate_report g.
Proof.
  intros H Hi. unfold gate_report, c_operand_list. rewrite (inverse_mask g s g' H Hi).
  destruct g as [[t g]|t b r|t d gs]; cbn [c_inverse] in Hi.
  - inv_bind Hi. injection Hi as <-. inversion H as [? ? ? Ha|? ? ? ? Hm|]; subst; [|apply measurement_mask in Hm; destruct Hm; discriminate].
    destruct (acts_spec g s Ha) as (qs & f & _ & Hw & _). destruct (inverse_wf _ _ Hw E) as [_ Eb].
    cbn [c_target_list c_control_list c_control_values]. unfold gate_target_list, gate_control_list, gate_control_values. now rewrite Eb.
  - discriminate.
  - inv_bind Hi. inv_bind Hi. injection Hi as <-. reflexivity.
Qed.

(** ** What an update can touch *)
Lemma told_effect vf k t g n B L psi psi' r r' ts cs vs : call_typed k -> make vf k = Ok g -> Forall (fun q => q < n) (call_operands k) -> sizes_ok n B L ->
  result n B L g psi r -> result n B L g psi' r' ->
  r_targets (gate_report (CElem (t, g))) = Ok ts -> r_controls (gate_report (CElem (t, g))) = Ok cs -> r_values (gate_report (CElem (t, g))) = Ok vs ->
  forall x, x < B * 2 ^ n ->
  (forall i q v, nth_error cs i = Some q -> nth_error vs i = Some v -> N.b2n (N.testbit x q) <> v -> r x = psi x) /\
  ((forall y, differs_only ts x y -> psi y = psi' y) -> r x = r' x).
Proof.
  intros Hty H HF Hs Hr Hr' Et Ec Ev x Hx. pose proof (factory_tells vf k g t Hty H) as (t0 & c0 & v0 & Et0 & Ec0 & Ev0 & _ & Hpt & _ & Hpc & Hl & _).
  rewrite Et in Et0. rewrite Ec in Ec0. rewrite Ev in Ev0. injection Et0 as <-. injection Ec0 as <-. injection Ev0 as <-.
  rewrite (updating_result _ _ _ _ _ _ _ _ (updating_call vf k g n B L psi Hty H HF Hs) Hr Hx).
  rewrite (updating_result _ _ _ _ _ _ _ _ (updating_call vf k g n B L psi' Hty H HF Hs) Hr' Hx). split.
  - intros i q v Hq Hv Hne. unfold apply_mat. destruct (ctrl_ok _ x) eqn:Eo; [|reflexivity]. exfalso. apply Hne.
    assert (Hin : In (q, v) (combine cs vs)).
    { clear -Hq Hv. revert cs vs Hq Hv. induction i as [|i IH]; intros [|c cs] [|w vs] Hq Hv; try discriminate.
      - injection Hq as ->. injection Hv as ->. now left.
      - right. now apply IH. }
    apply (Permutation_in _ Hpc) in Hin. apply in_map_iff in Hin. destruct Hin as ([q' b] & [= <- <-] & Hin). unfold ctrl_ok in Eo. rewrite forallb_forall in Eo.
    specialize (Eo _ Hin). cbn [fst snd] in *. apply eqb_prop in Eo. now rewrite Eo.
  - intros Hd. unfold apply_mat. destruct (ctrl_ok _ x); [|apply Hd; intros q _; reflexivity]. apply Csum_ext. intros j _. f_equal. apply Hd.
    intros q Hq. apply scatter_out. intros Hi. apply Hq. now apply (Permutation_in _ (Permutation_sym Hpt)).
Qed.

Definition mask_of_either (g : cgate + pgate) : N := match g with inl g => operand_mask g | inr g => poperand_mask g end.
Lemma flatten_param_inverted g g' p :
  match g with inl g => h <- c_inverse g ;; Ok (inl h) | inr g => h <- p_inverse g ;; Ok (inr h) end = Ok g' -> flatten_param_probabilistic_gate p g' = Ok [(p, g')].
Proof.
  destruct g as [g|g]; intros H; inv_bind H; injection H as <-.
  - destruct g as [[t g]|t b r|t d gs]; cbn [c_inverse] in E; [inv_bind E; injection E as <-; reflexivity|discriminate|].
    inv_bind E. inv_bind E. injection E as <-. reflexivity.
  - destruct g as [t k b c|t b q c|t d gs]; cbn [p_inverse] in E; [injection E as <-; reflexivity|injection E as <-; reflexivity|].
    inv_bind E. inv_bind E. injection E as <-. reflexivity.
Qed.
Lemma param_inverse_mask g s g' : pstands (inr g) s -> p_inverse g = Ok g' -> poperand_mask g' = poperand_mask g.
Proof.
  revert s g'. induction g as [t k b c|t b q c|t d gs IH] using pgate_ind'; intros s g' H Hi; cbn [p_inverse] in Hi; [injection Hi as <-; reflexivity|injection Hi as <-; reflexivity|].
  inv_bind Hi. inv_bind Hi. injection Hi as <-. apply mapR_Forall2 in E. apply impl_same in E0.
  - cbn [poperand_mask]. rewrite E0. apply (fold_lor_same mask_of_either). clear E0.
    apply pstands_choice_inv in H. destruct H as (ss & _ & _ & H2 & _). clear v0.
    revert ss H2. induction E as [|a b gs gs' Hab E IHE]; intros ss H2; [constructor|]. inversion H2 as [|? s' ? ss' Ha H2']; subst. inversion IH as [|? ? I1 I2]; subst. constructor; [|eauto].
    destruct a as [a|a]; inv_bind Hab; injection Hab as <-; cbn [mask_of_either].
    + inversion Ha; subst. eapply inverse_mask; eassumption.
    + cbn [on_param] in I1. eapply I1; eassumption.
  - clear -E. induction E as [|a b gs gs' Hab E IHE]; constructor; [|assumption]. intros p. eapply flatten_param_inverted; eassumption.
Qed.
Lemma param_inverse_report g s g' : pstands (inr g) s -> p_inverse g = Ok g' -> param_report g' = param_report g.
Proof.
  intros H Hi. unfold param_report, p_operand_list. rewrite (param_inverse_mask g s g' H Hi).
  destruct g as [t k b c|t b q c|t d gs]; cbn [p_inverse] in Hi; [injection Hi as <-; reflexivity|injection Hi as <-; reflexivity|].
  inv_bind Hi. inv_bind Hi. injection Hi as <-. reflexivity.
Qed.

(** ** Probabilistic gates *)
Definition some_bit (l : list (R * cgate)) (q : N) : Prop := exists pg, In pg l /\ N.testbit (operand_mask (snd pg)) q = true.
Lemma fold_lor_bit {A} (f : A -> N) l q : N.testbit (fold_left (fun m g => N.lor m (f g)) l 0) q = true <-> exists g, In g l /\ N.testbit (f g) q = true.
Proof. rewrite fold_lor_testbit, N.bits_0. cbn [orb]. apply existsb_exists. Qed.
Lemma flatten_bits g s q : stands g s -> forall p l, flatten_probabilistic_gate p g = Ok l -> (N.testbit (operand_mask g) q = true <-> some_bit l q).
Proof.
  revert s. induction g as [[t g]|t b r|t d gs IH] using cgate_ind'; intros s H p l Hl.
  - injection Hl as <-. split; [intros Hq; eexists; split; [now left|exact Hq]|intros (pg & [<-|[]] & Hq); exact Hq].
  - discriminate.
  - destruct t; [|injection Hl as <-; split; [intros Hq; eexists; split; [now left|exact Hq]|intros (pg & [<-|[]] & Hq); exact Hq]].
    inversion H as [|? ? ? ? Hm|? ? ? ss Hd Hlen H2]; subst; [apply measurement_mask in Hm; destruct Hm; discriminate|]. clear H Hd.
    cbn [operand_mask]. rewrite (fold_lor_bit operand_mask). cbn [flatten_probabilistic_gate] in Hl. revert d ss H2 Hlen l Hl.
    induction gs as [|g gs IHg]; intros [|x d] ss H2 Hlen l Hl; try discriminate.
    + injection Hl as <-. split; intros (y & [] & _).
    + inversion H2 as [|? s' ? ss' Hg H2']; subst. inversion IH as [|? ? I1 I2]; subst. inv_bind Hl. inv_bind Hl. injection Hl as <-. injection Hlen as Hlen.
      pose proof (I1 s' Hg _ _ E) as J1. specialize (IHg I2 d ss' H2' Hlen _ E0). split.
      * intros (y & [<-|Hy] & Hq); [apply J1 in Hq|assert (Hq' : some_bit v0 q) by (apply IHg; eauto); clear Hq; rename Hq' into Hq];
          destruct Hq as (z & Hz & Hq); exists z; (split; [apply in_or_app|exact Hq]); tauto.
      * intros (z & Hz & Hq). apply in_app_or in Hz. destruct Hz as [Hz|Hz].
        -- exists g. split; [now left|]. apply J1. eexists; eauto.
        -- destruct (proj2 IHg (ex_intro _ z (conj Hz Hq))) as (y & Hy & Hq'). exists y. split; [now right|exact Hq'].
Qed.
Lemma probabilistic_told dist gs ss g : Forall2 stands gs ss -> make_probabilistic dist gs = Ok g ->
  let r := gate_report g in r_targets r = Throw /\ r_controls r = Throw /\ r_values r = Throw /\
  (forall q, In q (r_operands r) <-> exists h, In h gs /\ In q (r_operands (gate_report h))).
Proof.
  intros HF H. unfold make_probabilistic in H. inv_bind H. injection H as <-. cbv zeta. split; [reflexivity|]. split; [reflexivity|]. split; [reflexivity|].
  unfold probabilistic_impl in E. destruct (length dist =? 0)%nat; [discriminate|]. destruct (Nat.eqb_spec (length dist) (length gs)) as [Hl|]; [|discriminate].
  cbn [negb] in E. destruct (negb _); [discriminate|]. inv_bind E. destruct (sum_is_one _); [|discriminate]. injection E as <-. cbn [fst snd].
  assert (HU : Forall (fun h => operand_mask h < two64) gs).
  { apply Forall_forall. intros h Hh. destruct (Forall2_left _ _ _ h HF Hh) as (s & _ & Hs). eapply stands_u64; eassumption. }
  assert (HB : forall q, some_bit v0 q <-> exists h, In h gs /\ N.testbit (operand_mask h) q = true).
  { intros q. clear HU. revert dist ss HF Hl v0 E0. induction gs as [|g gs IH]; intros [|d dist] ss HF Hl l E; try discriminate.
    - injection E as <-. split; intros (y & [] & _).
    - inversion HF as [|? s ? ss' Hg HF']; subst. cbn [flatten_all] in E. inv_bind E. inv_bind E. injection E as <-. injection Hl as Hl.
      pose proof (flatten_bits g s q Hg _ _ E0) as J1. specialize (IH dist ss' HF' Hl _ E1). split.
      + intros (z & Hz & Hq). apply in_app_or in Hz. destruct Hz as [Hz|Hz].
        * exists g. split; [now left|]. apply J1. eexists; eauto.
        * destruct (proj1 IH (ex_intro _ z (conj Hz Hq))) as (y & Hy & Hq'). exists y. split; [now right|exact Hq'].
      + intros (y & [<-|Hy] & Hq); [apply J1 in Hq|assert (Hq' : some_bit v0 q) by (apply IH; eauto); clear Hq; rename Hq' into Hq];
          destruct Hq as (z & Hz & Hq); exists z; (split; [apply in_or_app|exact Hq]); tauto. }
  intros q. cbn [gate_report r_operands]. unfold c_operand_list. cbn [operand_mask]. rewrite mask_to_vector_bits, in_bits, (fold_lor_bit operand_mask).
  - transitivity (some_bit v0 q).
    + unfold some_bit. split.
      * intros (h & Hh & Hq). apply in_map_iff in Hh. destruct Hh as (pg & <- & Hp). eauto.
      * intros (pg & Hp & Hq). exists (snd pg). split; [now apply in_map|exact Hq].
    + rewrite HB. split; intros (h & Hh & Hq); exists h; (split; [exact Hh|]); rewrite Forall_forall in HU; specialize (HU h Hh);
        [rewrite mask_to_vector_bits, in_bits by exact HU; exact Hq|rewrite mask_to_vector_bits, in_bits in Hq by exact HU; exact Hq].
  - apply lt_pow2_testbit. intros i Hi. apply not_true_is_false. intros Hq. apply (fold_lor_bit operand_mask) in Hq. destruct Hq as (h & Hh & Hq).
    apply in_map_iff in Hh. destruct Hh as (pg & <- & Hp). destruct (proj1 (HB i) (ex_intro _ pg (conj Hp Hq))) as (h & Hh & Hq'). rewrite Forall_forall in HU.
    specialize (HU h Hh). unfold two64 in HU. rewrite (testbit_high _ 64) in Hq' by assumption. discriminate.
Qed.
Lemma param_probabilistic_silent dist gs g : make_param_probabilistic dist gs = Ok g ->
  let r := param_report g in r_targets r = Throw /\ r_controls r = Throw /\ r_values r = Throw.
Proof. intros H. unfold make_param_probabilistic in H. inv_bind H. injection H as <-. repeat split. Qed.
Lemma impl_two a b : probabilistic_impl flatten_probabilistic_gate [/ 2; 1 - / 2]%R [CElem a; CElem b] = Ok ([/ 2; 1 - / 2]%R, [CElem a; CElem b]).
Proof.
  unfold probabilistic_impl. cbn [length Nat.eqb negb forallb flatten_all flatten_probabilistic_gate bindR app map fst snd]. unfold in_unit.
  repeat match goal with |- context [Rlt_dec ?x ?y] => destruct (Rlt_dec x y); [exfalso; Lra.lra|] end. cbn [andb negb bindR].
  unfold sum_is_one, cumulative_distribution. cbn [partial_sums last]. destruct (Rlt_dec _ _) as [H|_]; [|reflexivity].
  replace (0 + / 2 + (1 - / 2) - 1)%R with 0%R in H by field. rewrite Rabs_R0 in H. assert (0 < / 10 ^ 6)%R by (apply Rinv_0_lt_compat; Lra.lra). Lra.lra.
Qed.
Lemma report_example : exists g g' h h', make false (Call1 GS 3 [6] [0]) = Ok g /\ c_inverse (CElem (true, g)) = Ok g' /\
  gate_report g' = Report (Ok [3]) (Ok [6]) (Ok [0]) [3; 6] /\
  make_bit_flip false 5 (/ 2) = Ok h /\ c_inverse h = Ok h' /\ gate_report h' = Report Throw Throw Throw [5].
Proof.
  eexists _, _, _, _. split; [reflexivity|]. split; [reflexivity|]. split; [vm_compute; reflexivity|].
  split; [unfold make_bit_flip; cbn [noise1 make bindR]; unfold make_probabilistic|].
  - replace (noise1 false GX 5) with (Ok (CElem (true, EStd GX (GBase 32 0 0)))) by reflexivity. cbn [bindR]. unfold noise_I. rewrite impl_two. reflexivity.
  - cbn [fst snd c_inverse]. split.
    + assert (E : Circuit.mapR c_inverse [CElem (true, EStd GX (GBase 32 0 0)); CElem (true, EI)] =
        Ok [CElem (false, EStd GX (GBase 32 0 0)); CElem (false, EI)]) by reflexivity.
      rewrite E. cbn [bindR]. rewrite impl_two. reflexivity.
    + vm_compute. reflexivity.
Qed.
Lemma masks_told g s : stands g s ->
  match c_masks g with
  | Ok (t, c, cv) => exists ts cs vs, r_targets (gate_report g) = Ok ts /\ r_controls (gate_report g) = Ok cs /\ r_values (gate_report g) = Ok vs /\
      (forall q, N.testbit t q = true <-> In q ts) /\ (forall q, N.testbit c q = true <-> In q cs) /\
      (forall q, N.testbit cv q = true <-> In (q, 1) (combine cs vs))
  | Throw => r_targets (gate_report g) = Throw /\ r_controls (gate_report g) = Throw /\ r_values (gate_report g) = Throw
  | UB => False
  end.
Proof.
  intros H.
  assert (HB : forall b, base_ok b -> exists ts cs vs, r_targets (base_report b) = Ok ts /\ r_controls (base_report b) = Ok cs /\ r_values (base_report b) = Ok vs /\
      (forall q, N.testbit (g_t b) q = true <-> In q ts) /\ (forall q, N.testbit (g_c b) q = true <-> In q cs) /\ (forall q, N.testbit (g_cv b) q = true <-> In (q, 1) (combine cs vs))).
  { intros b (Hd & Hcv & Ht & Hc). unfold base_report. cbn [r_targets r_controls r_values].
    rewrite (mask_to_vector_bits (g_t b)), (mask_to_vector_bits (g_c b)), mask_to_values_bits by assumption. eexists _, _, _. split; [reflexivity|]. split; [reflexivity|]. split; [reflexivity|].
    split; [intros; now rewrite in_bits|]. split; [intros; now rewrite in_bits|]. intros q.
    assert (E : forall l, In (q, 1) (combine l (map (fun i => N.b2n (N.testbit (g_cv b) i)) l)) <-> In q l /\ N.testbit (g_cv b) q = true).
    { induction l as [|a l IH]; cbn [map combine In]; [tauto|]. rewrite IH. split.
      - intros [[= <- E]|[H1 H2]]; [|tauto]. destruct (N.testbit (g_cv b) a); [tauto|discriminate].
      - intros [[<-|H1] H2]; [left; now rewrite H2|tauto]. }
    rewrite E, in_bits. split; [|tauto]. intros Hq. split; [|exact Hq]. rewrite <- Hcv, N.land_spec in Hq. apply andb_prop in Hq. tauto. }
  destruct g as [[t g]|t b r|t d gs].
  - cbn [c_masks]. inversion H as [? ? ? Ha|? ? ? ? Hm|]; subst; [|apply measurement_mask in Hm; destruct Hm; discriminate].
    destruct (acts_spec g s Ha) as (qs & f & _ & [Hw _] & _). rewrite elem_report. now apply HB.
  - cbn [c_masks]. inversion H as [|q bit reset ? Hm|]; subst. apply measurement_mask in Hm. destruct Hm as [Hq [= -> _ _]].
    specialize (HB (GBase (2 ^ q) 0 0)). cbn [g_t g_c g_cv] in HB. apply HB. unfold base_ok. cbn [g_t g_c g_cv]. rewrite N.land_0_r. repeat split. now apply N.pow_lt_mono_r.
  - repeat split.
Qed.
