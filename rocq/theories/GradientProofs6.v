(** What is rejected, and where the method is wrong. *)
From Verif Require Export GradientProofs5 CircuitProofs19.

Lemma gradient_not_hermitian eps L o ps c w : o_herm o = false -> runs (compute_expectation_gradient eps L o ps c) w (fun out => out = HThrown w).
Proof. intros H. unfold compute_expectation_gradient. rewrite H. cbn [hcheck]. eapply runs_bind; [apply (runs_throw _ (fun out => out = HThrown w)); reflexivity|discriminate| |discriminate]. intros w1 [= ->]. reflexivity. Qed.

Lemma thrown_bind {T U} (p : host gworld T) (k : T -> host gworld U) w : runs p w thrown -> runs (hbind p k) w thrown.
Proof. intros H. eapply runs_bind; [exact H|intros t w1 [? E]; discriminate|intros w1 _; now exists w1|intros [? E]; discriminate]. Qed.
Lemma on_state_thrown {T} (p : host world T) w : runs p (World (gw_state w) None [] (gw_rand w)) (fun o => exists w1, o = HThrown w1) -> runs (on_state p) w thrown.
Proof.
  intros [H1 [o Ho]]. split.
  - intros o' (o1 & Ho1 & ->). destruct (H1 _ Ho1) as [w1 ->]. now eexists.
  - eexists. exists o. split; [exact Ho|reflexivity].
Qed.
(** the update of the circuit throws: measurements, conditions, missing parameters *)
Lemma gradient_update_rejects eps L o ps c w :
  (has_classical_instructions c = true \/ exists key, In key (keys c) /\ ps key = None) ->
  runs (compute_expectation_gradient eps L o ps c) w thrown.
Proof.
  intros H. unfold compute_expectation_gradient. destruct (o_herm o); cbn [hcheck]; [|apply thrown_bind; apply runs_throw; now eexists].
  eapply runs_bind_done; [apply runs_ret; instantiate (1 := fun _ w1 => w1 = w); reflexivity|]. intros _ w1 ->. cbn zeta. set (n := required_n_qubits c).
  eapply runs_bind_done.
  { apply on_state_runs. instantiate (1 := fun _ _ => True). eapply runs_weaken; [apply set_zero_state_ok|]. intros [u w'|w'|] Ho; cbn [done] in *; tauto. }
  intros _ w1 (w2 & _ & ->). apply thrown_bind. apply on_state_thrown. unfold circuit_update_plain.
  destruct (has_classical_instructions c) eqn:E; [apply runs_throw; now eexists|]. destruct H as [H|(key & Hk & Hn)]; [discriminate|].
  eapply runs_bind_done; [apply runs_modify; instantiate (1 := fun _ _ => True); exact I|]. intros _ w1 _.
  unfold circuit_update. assert (Hle : (required_n_qubits c <=? n) = true) by (apply N.leb_le, N.le_refl). rewrite Hle. cbn [hcheck].
  eapply runs_bind_done; [apply runs_ret; instantiate (1 := fun _ _ => True); exact I|]. intros _ w3 _.
  assert (Hf : forallb (fun k => match ps k with Some _ => true | None => false end) (keys c) = false).
  { apply not_true_is_false. intros Hf. rewrite forallb_forall in Hf. specialize (Hf key Hk). now rewrite Hn in Hf. }
  rewrite Hf. cbn [hcheck]. eapply runs_bind; [apply (runs_throw _ (fun out => exists w1, out = HThrown w1)); now eexists|intros t w4 [? E4]; discriminate|eauto|intros [? E4]; discriminate].
Qed.

(** ** Rotations that are refused *)
Lemma gradient_update_refuses eps L o ps c w :
  ((exists f, In (Some f) (c_conds c)) \/ (exists t b r, In (IGate (CMeas t b r)) (c_gates c)) \/ exists key, In key (keys c) /\ ps key = None) ->
  runs (compute_expectation_gradient eps L o ps c) w thrown.
Proof.
  intros H. apply gradient_update_rejects. destruct H as [H|[H|H]]; [left; apply has_classical_spec; auto|left; apply has_classical_spec; auto|now right].
Qed.
Lemma hbind_assoc {W A B D} (p : host W A) (q : A -> host W B) (r : B -> host W D) w o :
  hbind (hbind p q) r w o <-> hbind p (fun a => hbind (q a) r) w o.
Proof.
  split.
  - intros (o1 & (o2 & H2 & H1) & H). exists o2. split; [exact H2|]. destruct o2 as [a w2|w2|]; [exists o1; auto|subst o1; exact H|subst o1; exact H].
  - intros (o2 & H2 & H). destruct o2 as [a w2|w2|].
    + destruct H as (o1 & H1 & H). exists o1. split; [exists (HDone a w2); auto|exact H].
    + exists (HThrown w2). split; [exists (HThrown w2); auto|exact H].
    + exists HUndefined. split; [exists HUndefined; auto|exact H].
Qed.
Lemma hbind_ext {W A B} (p : host W A) (q r : A -> host W B) : (forall a w o, q a w o <-> r a w o) -> forall w o, hbind p q w o <-> hbind p r w o.
Proof. intros H w o. split; intros (o1 & H1 & H2); exists o1; (split; [exact H1|]); destruct o1; try exact H2; now apply H. Qed.
Lemma backprop_app eps n nb L ps a b : forall grad w o,
  backprop_items eps n nb L ps (a ++ b) grad w o <-> hbind (backprop_items eps n nb L ps a grad) (fun g => backprop_items eps n nb L ps b g) w o.
Proof.
  induction a as [|i a IH]; intros grad w o.
  - cbn [app backprop_items]. split; [intros H; exists (HDone grad w); split; [reflexivity|exact H]|intros (o1 & -> & H); exact H].
  - destruct i as [g|g key]; cbn [app backprop_items].
    + rewrite hbind_assoc. apply hbind_ext. intros inv w1 o1. rewrite hbind_assoc. apply hbind_ext. intros _ w2 o2. rewrite hbind_assoc. apply hbind_ext. intros _ w3 o3. apply IH.
    + rewrite hbind_assoc. apply hbind_ext. intros ct w1 o1. cbn zeta. rewrite hbind_assoc. apply hbind_ext. intros inv w2 o2. rewrite hbind_assoc. apply hbind_ext. intros pr w3 o3.
      rewrite hbind_assoc. apply hbind_ext. intros _ w4 o4. rewrite hbind_assoc. apply hbind_ext. intros _ w5 o5. apply IH.
Qed.
Lemma runs_iff {W T} (p q : host W T) w Q : (forall o, p w o <-> q w o) -> runs p w Q -> runs q w Q.
Proof. intros E [H1 [o H2]]. split; [intros o' Ho'; apply H1, E, Ho'|exists o; now apply E]. Qed.
(** slower than the machine epsilon, or about a Pauli operator whose coefficient is not real *)
Lemma contribution_refused vf k g key eps n nb L w : layer_item vf (Turn k key) (IParam g key) -> refused eps k -> runs (contribution eps n nb L g) w thrown.
Proof.
  intros Hi Hr. destruct (turn_item vf k key g key Hi) as (_ & g1 & Hm & Hg). unfold contribution.
  assert (Hsmall : forall x, (Rabs x < / 2 ^ 52)%R -> tiny x double_epsilon = true) by (intros x Hx; unfold tiny, double_epsilon; destruct (Rlt_dec _ _); [reflexivity|contradiction]).
  destruct k as [k t pc cs vs|p pc cs vs]; cbn [make_param] in Hm; inv_bind Hm; inv_bind Hm; destruct v0 as [[t' c] cv]; inv_bind Hm; injection Hm as <-.
  - destruct Hr as [Hr|[]]. cbn [turn_scale] in Hr.
    assert (Ep : pauli_coef_of eps g = Ok 1%R /\ param_coef g = pc) by (destruct Hg as [->|(kk & b & pc' & -> & E3)]; [|injection E3 as -> -> ->]; (split; reflexivity)).
    destruct Ep as [-> ->]. cbn [hlift].
    eapply runs_bind_done; [apply runs_ret; instantiate (1 := fun t w1 => t = 1%R); reflexivity|]. intros t1 w1 ->. cbn zeta. apply thrown_bind.
    rewrite Rmult_1_r, Hsmall by assumption. cbn [negb hcheck]. apply runs_throw. now eexists.
  - destruct Hg as [->|(kk & b & pc' & -> & E3)]; [|discriminate]. cbn [pauli_coef_of param_coef]. destruct (tiny (snd (p_coef p)) eps) eqn:E3; cbn [negb].
    + destruct (tiny (fst (p_coef p)) double_epsilon) eqn:E4; [apply thrown_bind, runs_throw; now eexists|].
      cbn [hlift]. eapply runs_bind_done; [apply runs_ret; instantiate (1 := fun t w1 => t = fst (p_coef p)); reflexivity|]. intros t1 w1 ->. cbn zeta. apply thrown_bind.
      destruct Hr as [Hr|[Hr|Hr]].
      * cbn [turn_scale] in Hr. rewrite Hsmall by assumption. cbn [negb hcheck]. apply runs_throw. now eexists.
      * unfold tiny in E3. destruct (Rlt_dec _ _); [lra|discriminate].
      * rewrite Hsmall in E4 by assumption. discriminate.
    + apply thrown_bind, runs_throw. now eexists.
Qed.
Theorem gradient_refuses vf ls1 k key ls2 c eps L o ps val w : built vf (ls1 ++ Turn k key :: ls2) c ->
  Forall layer_typed ls1 -> pcall_typed k -> refused eps k -> Forall differentiable ls2 ->
  (0 < eps)%R -> lanes_ok L -> let n := required_n_qubits c in n < 64 -> op_fits n o ->
  (forall key', In key' (layer_keys (ls1 ++ Turn k key :: ls2)) -> ps key' = Some (val key')) ->
  runs (compute_expectation_gradient eps L o ps c) w thrown.
Proof.
  intros Hb Ht1 Htk Hrk Hd2 Heps HL n Hn Hfo Hps. set (ls := ls1 ++ Turn k key :: ls2) in *.
  assert (Hty : Forall layer_typed ls).
  { apply Forall_app. split; [exact Ht1|]. constructor; [exact Htk|]. eapply Forall_impl; [apply differentiable_typed|exact Hd2]. }
  unfold compute_expectation_gradient. destruct (o_herm o); cbn [hcheck]; [|apply thrown_bind; apply runs_throw; now eexists].
  eapply runs_bind_done; [apply runs_ret; instantiate (1 := fun _ w1 => w1 = w); reflexivity|]. intros _ w1 ->. cbn zeta. fold n.
  eapply runs_bind_done.
  { apply on_state_runs. instantiate (1 := fun _ w1 => forall x, x < 2 ^ n -> w_amp w1 x = basis 0 x). cbn [gw_state].
    eapply runs_weaken; [apply set_zero_state_ok|]. intros [u w'|w'|] H; cbn [done] in *; try contradiction. intros x Hx. destruct H as [H _]. rewrite H by assumption. reflexivity. }
  intros _ w1 (w2 & Hz & ->).
  eapply runs_bind_done; [apply on_state_runs; apply (circuit_plain_runs vf ls c n L ps val _ Hn HL Hb Hty (N.le_refl _) Hps)|].
  intros u w1 (w3 & Ha & ->). cbn [gw_state gw_bistate gw_rand w_amp] in *. unfold computes_amp in Ha. cbn [w_amp] in Ha.
  eapply runs_bind_done; [apply runs_modify; instantiate (1 := fun _ w1 => gw_state w1 = w_amp w3 /\ gw_bistate w1 = w_amp w3); cbn [done gw_state gw_bistate]; auto|].
  intros _ w1 [Es Eb].
  eapply runs_bind_done; [apply apply_to_bistate_runs; [lia|exact Hfo]|]. intros _ w4 [Es4 _].
  unfold compute_expectation_gradient_backprop. pose proof Hb as [H2 _]. unfold ls in H2. apply Forall2_app_inv_l in H2. destruct H2 as (i1 & i2 & H1 & H2 & E).
  inversion H2 as [|? it ? i3 Hit H3]; subst. rewrite E, rev_app_distr. cbn [rev]. rewrite <- app_assoc.
  pose proof (built_operands vf ls c Hb Hty) as Hop. unfold ls in Hop. apply Forall_app in Hop. destruct Hop as [_ Hop]. inversion Hop as [|? ? Hopk Hop2]; subst.
  eapply runs_iff; [intros out; symmetry; apply backprop_app|].
  eapply runs_bind_done.
  { apply (backprop_items_runs eps n L ps val Heps Hn HL vf (evolve val (ls1 ++ [Turn k key]) (w_amp w2)) (rev ls2) (rev i3)).
    - now apply Forall2_rev'.
    - now apply Forall_rev.
    - now apply Forall_rev.
    - intros key' Hk. apply Hps. unfold layer_keys, ls. rewrite flat_map_app. apply in_or_app. right. cbn [flat_map]. apply in_or_app. right. now apply (proj1 (layer_keys_rev ls2 key')).
    - intros x Hx. rewrite Es4, Es, Ha by assumption. rewrite <- evolve_rpsi. unfold evolve, ls. rewrite <- fold_left_app, <- app_assoc. reflexivity.
    - intros key' Hk. unfold gradient_start. rewrite (built_keys vf ls c Hb). apply (proj1 (layer_keys_rev ls2 key')) in Hk.
      assert (Hin : In key' (layer_keys ls)) by (unfold layer_keys, ls; rewrite flat_map_app; apply in_or_app; right; cbn [flat_map]; apply in_or_app; now right).
      apply existsb_in in Hin. now rewrite Hin. }
  intros g w5 _. destruct it as [|g' key'']; [contradiction|]. pose proof (turn_item vf k key g' key'' Hit) as (-> & _).
  cbn [app backprop_items]. apply thrown_bind. eapply contribution_refused; eassumption.
Qed.
