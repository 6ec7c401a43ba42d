(** compute_expectation_gradient *)
From Verif Require Export GradientProofs4.

Lemma differentiable_typed l : differentiable l -> layer_typed l.
Proof. destruct l; cbn; tauto. Qed.
Lemma layer_mask vf l i q : layer_item vf l i -> layer_typed l -> (N.testbit (item_mask i) q = true <-> In q (layer_operands l)).
Proof.
  intros Hi Hty. destruct l as [k|k key].
  - destruct i as [[[t g]| |]|]; try contradiction. cbn [layer_item layer_typed] in *.
    refine (item_mask_operands _ (SFixed (act_of k)) q _). apply represents_gate, stands_act. eapply acts_factory; eassumption.
  - destruct i as [|g key']; [contradiction|]. cbn [layer_item layer_typed] in *. destruct Hi as [-> [Hm|(Hk & g0 & Hm & Hi)]].
    + refine (item_mask_operands _ (SKeyed key (fun v => act_of (pcall_at k v))) q _). apply represents_param. eapply pstands_factory; eassumption.
    + assert (E : layer_operands (Turn k key) = item_operands (SKeyed key (fun v => act_of (pcall_at (pcall_opposite (pcall_opposite k)) v)))) by (destruct k; reflexivity).
      rewrite E. apply item_mask_operands, represents_param. eapply pstands_inverse; [|exact Hm|exact Hi]. destruct k; exact Hty.
Qed.
Lemma built_operands vf ls c : built vf ls c -> Forall layer_typed ls ->
  Forall (fun l => Forall (fun q => q < required_n_qubits c) (layer_operands l)) ls.
Proof.
  intros [H2 _] Hty. unfold required_n_qubits. pose proof (proj1 (bit_width_le (fold_left (fun m i => N.lor m (item_mask i)) (c_gates c) 0) _) (N.le_refl _)) as H.
  apply Forall_forall. intros l Hl. apply Forall_forall. intros q Hq. apply H. rewrite fold_lor_testbit. apply orb_true_iff. right.
  apply existsb_exists. clear H. induction H2 as [|l' i ls' is Hi H2 IH]; [destruct Hl|]. inversion Hty as [|? ? Ht1 Ht2]; subst. destruct Hl as [->|Hl].
  - exists i. split; [now left|]. now apply (layer_mask vf l i q).
  - destruct (IH Ht2 Hl) as (j & Hj & Ht). exists j. split; [now right|exact Ht].
Qed.
Lemma built_keys vf ls c : built vf ls c -> keys c = layer_keys ls.
Proof.
  intros [H2 _]. unfold keys, layer_keys. induction H2 as [|l i ls' is Hi H2 IH]; [reflexivity|]. cbn [flat_map]. rewrite IH. f_equal.
  destruct l, i as [[[t g]| |]|]; try contradiction; [reflexivity|]. destruct Hi as [-> _]. reflexivity.
Qed.
Lemma built_quantum vf ls c : built vf ls c -> has_classical_instructions c = false.
Proof.
  intros [H2 Hc]. unfold has_classical_instructions. rewrite Hc. apply orb_false_iff. split.
  - clear. induction ls; [reflexivity|exact IHls].
  - clear Hc. induction H2 as [|l i ls' is Hi H2 IH]; [reflexivity|]. cbn [existsb]. rewrite IH. destruct l, i as [[[t g]| |]|]; try contradiction; reflexivity.
Qed.

(** ** Forwards *)
Lemma layer_runs vf n L ps val l i w : n < 64 -> lanes_ok L -> layer_item vf l i -> layer_typed l -> Forall (fun q => q < n) (layer_operands l) ->
  (forall key, In key (layer_keys [l]) -> ps key = Some (val key)) ->
  runs (item_update n L ps i) w (done (computes_amp n (layer_act val l) w)).
Proof.
  intros Hn HL Hi Hty HF Hps. destruct l as [k|k key].
  - destruct i as [[[t g]| |]|]; try contradiction. cbn [layer_item layer_typed item_update] in *.
    destruct (call_sem vf k g n Hn Hty Hi HF) as (Hw & Hf & Hs). eapply runs_weaken; [apply elem_runs; eassumption|].
    intros [u w'|w'|] H; cbn [done] in *; try contradiction. intros a Ha. rewrite H by assumption. symmetry. apply Hs.
  - destruct i as [|g key']; [contradiction|]. destruct (turn_item vf k key g key' Hi) as (-> & g1 & Hm & Hg). cbn [item_update].
    rewrite (Hps key) by (left; reflexivity). cbn [opt_res hlift]. eapply returns_bind; [apply runs_ret; reflexivity|].
    destruct (make_param_at vf k g1 (val key) Hm) as [Hm' Hg1]. 
    assert (HF' : Forall (fun q => q < n) (call_operands (pcall_at k (val key)))) by (destruct k; exact HF).
    destruct (call_sem vf _ _ n Hn (pcall_typed_at k _ Hty) Hm' HF') as (Hw & Hfit & Hf).
    assert (Hat : pgate_at g (val key) = pgate_at g1 (val key)) by (destruct Hg as [->|(kk & b & pc & -> & ->)]; reflexivity).
    eapply runs_weaken; [apply pgate_runs; [assumption|assumption| |rewrite Hat; assumption|rewrite Hat; assumption]|].
    + destruct Hg as [->|(kk & b & pc' & -> & _)]; [assumption|exact I].
    + intros [u w'|w'|] H; cbn [done] in *; try contradiction. intros a Ha. rewrite H by assumption. rewrite Hat. symmetry. apply Hf.
Qed.
Lemma layer_local vf val n l i psi phi x : n < 64 -> layer_item vf l i -> layer_typed l -> Forall (fun q => q < n) (layer_operands l) ->
  (forall y, y < 2 ^ n -> psi y = phi y) -> x < 2 ^ n -> layer_act val l psi x = layer_act val l phi x.
Proof.
  intros Hn Hi Hty HF H Hx.
  assert (HG : forall k g, call_typed k -> make vf k = Ok g -> Forall (fun q => q < n) (call_operands k) -> call_act k psi x = call_act k phi x).
  { intros k g Hk Hm HF'. destruct (call_sem vf k g n Hn Hk Hm HF') as (Hw & Hf & Hs). rewrite !Hs. apply (gate_sem_ext n 1); try assumption; [|lia].
    intros y Hy. apply H. lia. }
  destruct l as [k|k key].
  - destruct i as [[[t g]| |]|]; try contradiction. eapply HG; eassumption.
  - destruct i as [|g key']; [contradiction|]. destruct (turn_item vf k key g key' Hi) as (-> & g1 & Hm & Hg).
    cbn [layer_act]. apply (HG _ (pgate_at g1 (val key))); [now apply pcall_typed_at|now apply make_param_at|]. destruct k; exact HF.
Qed.
Lemma items_run vf n L ps val : n < 64 -> lanes_ok L -> forall ls items, Forall2 (layer_item vf) ls items -> Forall layer_typed ls ->
  Forall (fun l => Forall (fun q => q < n) (layer_operands l)) ls -> (forall key, In key (layer_keys ls) -> ps key = Some (val key)) ->
  forall w, runs (run_items n L ps items (map (fun _ => None) ls) 0) w (done (computes_amp n (evolve val ls) w)).
Proof.
  intros Hn HL ls items H2. induction H2 as [|l i ls items Hi H2 IH]; intros Hty HF Hps w.
  - apply runs_ret. intros a _. reflexivity.
  - inversion Hty as [|? ? Hty1 Hty2]; subst. inversion HF as [|? ? HF1 HF2]; subst. cbn [map run_items checked_cond].
    assert (Hps' : forall key, In key (layer_keys ls) -> ps key = Some (val key)) by (intros key Hk; apply Hps; unfold layer_keys; cbn [flat_map]; apply in_or_app; now right).
    eapply returns_bind; [apply runs_ret; reflexivity|]. cbn iota. unfold guarded_update. rewrite N.land_0_l, N.eqb_refl. cbn [hcheck].
    eapply runs_bind_done.
    { eapply returns_bind; [apply runs_ret; reflexivity|]. eapply runs_bind_done.
      - apply (layer_runs vf n L ps val l i w Hn HL Hi Hty1 HF1). intros key Hk. apply Hps. unfold layer_keys in *. cbn [flat_map] in *. rewrite app_nil_r in Hk. apply in_or_app. now left.
      - intros u w1 Hw1. apply runs_ret. instantiate (1 := fun m w1 => m = 0 /\ forall a, a < 2 ^ n -> w_amp w1 a = layer_act val l (w_amp w) a). cbn [done].
        split; [|exact Hw1]. destruct l, i as [[[t g]| |]|]; try contradiction; reflexivity. }
    intros m w1 [-> Hw1]. eapply runs_weaken; [exact (IH Hty2 HF2 Hps' w1)|].
    intros [u w'|w'|] H; cbn [done] in *; try contradiction. intros a Ha. rewrite H by assumption. unfold evolve. cbn [fold_left].
    clear - Hn H2 Hty2 HF2 Ha Hw1. revert Ha. revert a. change (forall y, y < 2 ^ n -> evolve val ls (w_amp w1) y = evolve val ls (layer_act val l (w_amp w)) y).
    revert Hw1. generalize (w_amp w1), (layer_act val l (w_amp w)). clear w w1.
    induction H2 as [|l' i' ls items Hi H2 IH]; intros a b Hab; [exact Hab|]. inversion Hty2 as [|? ? Ht1 Ht2]; subst. inversion HF2 as [|? ? Hf1 Hf2]; subst.
    unfold evolve. cbn [fold_left]. apply (IH Ht2 Hf2). intros y Hy. now apply (layer_local vf val n l' i').
Qed.
Lemma circuit_plain_runs vf ls c n L ps val w : n < 64 -> lanes_ok L -> built vf ls c -> Forall layer_typed ls -> required_n_qubits c <= n ->
  (forall key, In key (layer_keys ls) -> ps key = Some (val key)) ->
  runs (circuit_update_plain n L ps c) w (done (computes_amp n (evolve val ls) w)).
Proof.
  intros Hn HL Hb Hty Hr Hps. unfold circuit_update_plain. rewrite (built_quantum vf ls c Hb).
  eapply runs_bind_done; [apply runs_modify; instantiate (1 := fun _ w1 => w1 = set_reg [] w); reflexivity|]. intros _ w1 ->.
  unfold circuit_update. apply N.leb_le in Hr. rewrite Hr. cbn [hcheck]. eapply returns_bind; [apply runs_ret; reflexivity|].
  assert (Hk : forallb (fun k => match ps k with Some _ => true | None => false end) (keys c) = true).
  { apply forallb_forall. intros k Hk. rewrite (built_keys vf ls c Hb) in Hk. now rewrite Hps. }
  rewrite Hk. cbn [hcheck]. eapply returns_bind; [apply runs_ret; reflexivity|].
  pose proof Hb as [H2 Hc]. rewrite Hc.
  change (computes_amp n (evolve val ls) w) with (computes_amp n (evolve val ls) (set_reg [] w)).
  apply (items_run vf n L ps val Hn HL ls (c_gates c) H2 Hty); [|exact Hps].
  eapply Forall_impl; [|exact (built_operands vf ls c Hb Hty)]. intros l Hl. eapply Forall_impl; [|exact Hl]. intros q Hq. cbn beta in Hq. apply N.leb_le in Hr. lia.
Qed.

(** ** All of it *)
Lemma Forall2_rev' {A B} (P : A -> B -> Prop) l l' : Forall2 P l l' -> Forall2 P (rev l) (rev l').
Proof. induction 1; [constructor|]. cbn [rev]. apply Forall2_app; [assumption|]. now constructor. Qed.
Lemma existsb_in key l : existsb (String.eqb key) l = true <-> In key l.
Proof. rewrite existsb_exists. split; [intros (k & Hk & E); apply String.eqb_eq in E; now subst|intros H; exists key; split; [exact H|apply String.eqb_refl]]. Qed.
Lemma layer_keys_rev ls key : In key (layer_keys (rev ls)) <-> In key (layer_keys ls).
Proof. unfold layer_keys. rewrite !in_flat_map. split; intros (l & Hl & Hk); exists l; (split; [|exact Hk]); [now apply in_rev|now rewrite <- in_rev]. Qed.
Theorem backprop_correct vf ls c eps n L ps val w psi0 : built vf ls c -> Forall differentiable ls -> (0 < eps)%R -> n < 64 -> lanes_ok L ->
  required_n_qubits c <= n -> (forall key, In key (layer_keys ls) -> ps key = Some (val key)) ->
  (forall x, x < 2 ^ n -> gw_state w x = evolve val ls psi0 x) ->
  runs (compute_expectation_gradient_backprop eps n n L ps c) w (done (fun g w' =>
    (forall x, x < 2 ^ n -> gw_state w' x = psi0 x) /\
    forall key, (~ In key (layer_keys ls) -> g key = None) /\
      (In key (layer_keys ls) -> g key = Some (2 * Re (inner n (gw_bistate w) (rdel val key psi0 (rev ls))))%R))).
Proof.
  intros Hb Hd Heps Hn HL Hr Hps Hst. unfold compute_expectation_gradient_backprop. pose proof Hb as [H2 _].
  assert (Hty : Forall layer_typed ls) by (eapply Forall_impl; [apply differentiable_typed|exact Hd]).
  assert (H2' : Forall2 (layer_item vf) (rev ls) (rev (c_gates c))) by now apply Forall2_rev'.
  eapply runs_weaken.
  - apply (backprop_items_runs eps n L ps val Heps Hn HL vf psi0 (rev ls) (rev (c_gates c)) H2').
    + now apply Forall_rev.
    + apply Forall_rev. eapply Forall_impl; [|exact (built_operands vf ls c Hb Hty)]. intros l Hl. eapply Forall_impl; [|exact Hl]. intros q Hq. cbn beta in Hq. lia.
    + intros key Hk. apply Hps. now apply layer_keys_rev.
    + intros x Hx. rewrite Hst by assumption. now rewrite evolve_rpsi.
    + intros key Hk. unfold gradient_start. rewrite (built_keys vf ls c Hb). apply (proj1 (layer_keys_rev ls key)) in Hk. apply existsb_in in Hk. now rewrite Hk.
  - intros [g w'|w'|] H; cbn [done] in *; try contradiction. destruct H as [H1 H3]. split; [exact H1|]. intros key. rewrite H3.
    unfold gradient_start. rewrite (built_keys vf ls c Hb). split; intros Hk.
    + destruct (existsb (String.eqb key) (layer_keys ls)) eqn:E; [apply existsb_in in E; contradiction|reflexivity].
    + apply existsb_in in Hk. rewrite Hk. cbn [option_map]. f_equal. ring.
Qed.
(** The same with the derivative of the vector written out. *)
Theorem backprop_derivative vf ls c eps n L ps val w psi0 : built vf ls c -> Forall differentiable ls -> (0 < eps)%R -> n < 64 -> lanes_ok L ->
  required_n_qubits c <= n -> (forall key, In key (layer_keys ls) -> ps key = Some (val key)) ->
  (forall x, x < 2 ^ n -> gw_state w x = evolve val ls psi0 x) ->
  runs (compute_expectation_gradient_backprop eps n n L ps c) w (done (fun g w' =>
    (forall x, x < 2 ^ n -> gw_state w' x = psi0 x) /\
    forall key, if existsb (String.eqb key) (keys c)
      then exists d, (forall x, cderivative (fun v => evolve (with_value val key v) ls psi0 x) (val key) (d x)) /\
                     g key = Some (2 * Re (inner n (gw_bistate w) d))%R
      else g key = None)).
Proof.
  intros Hb Hd Heps Hn HL Hr Hps Hst. eapply runs_weaken; [apply (backprop_correct vf ls c eps n L ps val w psi0); assumption|].
  intros [g w'|w'|] H; cbn [done] in *; try contradiction. destruct H as [H1 H3]. split; [exact H1|]. intros key. rewrite (built_keys vf ls c Hb).
  destruct (existsb (String.eqb key) (layer_keys ls)) eqn:E.
  - apply existsb_in in E. exists (rdel val key psi0 (rev ls)). split; [|now apply H3]. intros x.
    eapply cd_ext; [|apply (vd_rpsi val key psi0 (rev ls))].
    + intros t. cbn beta. now rewrite evolve_rpsi.
    + apply Forall_rev. eapply Forall_impl; [|exact Hd]. exact differentiable_plain.
  - apply H3. intros Hk. apply existsb_in in Hk. congruence.
Qed.
Lemma apply_to_bistate_runs o n w : n <= 63 -> op_fits n o -> runs (apply_to_bistate o n) w (done (fun _ w' =>
  gw_state w' = gw_state w /\ forall x, x < 2 ^ n -> gw_bistate w' x = op_act o (gw_bistate w) x)).
Proof.
  intros Hn Hf. split.
  - intros out (scheds & trees & Ht & Ho). pose proof (op_apply_to_state_safe o n Hn Hf (gw_bistate w) scheds trees Ht) as H.
    destruct (op_apply_to_state o (2 ^ n) (gw_bistate w) scheds trees) as [r| | |]; [|contradiction|contradiction|contradiction]. subst out. cbn [done gw_state gw_bistate].
    split; [reflexivity|]. intros x Hx. now rewrite (H x Hx).
  - assert (Htr : exists trees : N -> rtree N, forall i, reduction_of (seqN (N.of_nat (length (o_terms o)))) (trees i)).
    { exists (fun _ => RLeaf (seqN (N.of_nat (length (o_terms o))))). intros i. apply reduction_exists. }
    destruct Htr as [trees Htr]. destruct (op_apply_to_state_live o n Hn Hf (gw_bistate w) trees) as (scheds & r & E).
    eexists. exists scheds, trees. split; [exact Htr|]. rewrite E. reflexivity.
Qed.
Theorem gradient_correct vf ls c eps L o ps val w : built vf ls c -> Forall differentiable ls -> (0 < eps)%R -> lanes_ok L ->
  let n := required_n_qubits c in n < 64 -> o_herm o = true -> self_adjoint n (op_act o) -> op_fits n o ->
  (forall key, In key (layer_keys ls) -> ps key = Some (val key)) ->
  runs (compute_expectation_gradient eps L o ps c) w (done (fun g _ =>
    forall key, if existsb (String.eqb key) (keys c)
      then exists d, g key = Some d /\ derivable_pt_lim (fun v => energy n o (with_value val key v) ls) (val key) d
      else g key = None)).
Proof.
  intros Hb Hd Heps HL n Hn Hh Hsa Hfo Hps.
  assert (Hty : Forall layer_typed ls) by (eapply Forall_impl; [apply differentiable_typed|exact Hd]).
  assert (Hpl : Forall plain_layer ls) by (eapply Forall_impl; [apply differentiable_plain|exact Hd]).
  unfold compute_expectation_gradient. rewrite Hh. cbn [hcheck].
  eapply runs_bind_done; [apply runs_ret; instantiate (1 := fun _ w1 => w1 = w); reflexivity|]. intros _ w1 ->. cbn zeta. fold n.
  eapply runs_bind_done.
  { apply on_state_runs. instantiate (1 := fun _ w1 => forall x, x < 2 ^ n -> w_amp w1 x = basis 0 x). cbn [gw_state].
    eapply runs_weaken; [apply set_zero_state_ok|]. intros [u w'|w'|] H; cbn [done] in *; try contradiction. intros x Hx. destruct H as [H _]. rewrite H by assumption. reflexivity. }
  intros _ w1 (w2 & Hz & ->).
  eapply runs_bind_done; [apply on_state_runs; apply (circuit_plain_runs vf ls c n L ps val _ Hn HL Hb Hty (N.le_refl _) Hps)|].
  intros u w1 (w3 & Ha & ->). cbn [gw_state gw_bistate gw_rand w_amp] in *. unfold computes_amp in Ha. cbn [w_amp] in Ha.
  assert (Hst : forall x, x < 2 ^ n -> w_amp w3 x = evolve val ls (basis 0) x).
  { intros x Hx. rewrite Ha by assumption. pose proof Hb as [H2 _]. pose proof (built_operands vf ls c Hb Hty) as Hop. fold n in Hop.
    revert x Hx. revert Hz. generalize (w_amp w2), (basis 0). clear - H2 Hty Hop Hn.
    induction H2 as [|l i ls items Hi H2 IH]; intros a b Hab; [exact Hab|]. inversion Hty as [|? ? Ht1 Ht2]; subst. inversion Hop as [|? ? Ho1 Ho2]; subst.
    unfold evolve. cbn [fold_left]. apply (IH Ht2 Ho2). intros y Hy. now apply (layer_local vf val n l i). }
  eapply runs_bind_done; [apply runs_modify; instantiate (1 := fun _ w1 => gw_state w1 = w_amp w3 /\ gw_bistate w1 = w_amp w3); cbn [done gw_state gw_bistate]; auto|].
  intros _ w1 [Es Eb].
  eapply runs_bind_done; [apply apply_to_bistate_runs; [lia|exact Hfo]|]. intros _ w4 [Es4 Eb4].
  eapply runs_weaken; [apply (backprop_correct vf ls c eps n L ps val w4 (basis 0)); try assumption; [apply N.le_refl|]|].
  - intros x Hx. rewrite Es4, Es. now apply Hst.
  - intros [g w'|w'|] H; cbn [done] in *; try contradiction. destruct H as [_ H]. intros key. rewrite (built_keys vf ls c Hb).
    destruct (existsb (String.eqb key) (layer_keys ls)) eqn:E.
    + apply existsb_in in E. eexists. split; [apply H; exact E|].
      rewrite (inner_ext n (gw_bistate w4) _ (op_act o (evolve val ls (basis 0))) (rdel val key (basis 0) (rev ls))); [now apply energy_derivative| |reflexivity].
      intros x Hx. rewrite Eb4 by assumption. rewrite Eb. unfold op_act, terms_act. apply Csuml_ext. intros p Hp. rewrite !pauli_act_eq. f_equal. apply Hst.
      apply lxor_lt_pow2; [assumption|]. unfold op_fits in Hfo. rewrite Forall_forall in Hfo. apply Hfo; assumption.
    + apply H. intros Hk. apply existsb_in in Hk. congruence.
Qed.
