(** The three counterexamples. *)
From Coq Require Import FunctionalExtensionality.
From Verif Require Export GradientProofs7.

Definition z_on_0 : operator := Op [Pauli C1 0 1] true false.
Definition x_on_1 : operator := Op [Pauli C1 2 0] true false.
Lemma z_on_0_act psi x : op_act z_on_0 psi x = (pauli_phase 0 1 x * psi x)%C.
Proof.
  unfold op_act, terms_act, z_on_0. cbn [o_terms]. unfold Csuml. cbn [map fold_right]. rewrite pauli_act_eq. cbn [p_coef p_bf p_pf]. rewrite N.lxor_0_r. ring.
Qed.
Lemma z_on_0_fits n : 0 < n -> op_fits n z_on_0.
Proof. intros H. constructor; [|constructor]. split; cbn [p_bf p_pf]; [apply pow2_pos|]. apply (N.pow_lt_mono_r 2 0 n); lia. Qed.
Lemma z_on_0_self_adjoint n : 0 < n -> self_adjoint n (op_act z_on_0).
Proof. intros H. apply all_real_self_adjoint; [cbn [all_real forallb p_coef]; unfold is_real; cbn; destruct (Req_EM_T 0 0); [reflexivity|congruence]|]. exact (z_on_0_fits n H). Qed.
Lemma tiny_1 x : (Rabs x = 1)%R -> tiny x double_epsilon = false.
Proof.
  intros H. unfold tiny. destruct (Rlt_dec _ _) as [Hl|]; [|reflexivity]. exfalso. rewrite H in Hl. unfold double_epsilon in Hl.
  assert (/ 2 ^ 52 <= 1)%R; [|lra]. rewrite <- Rinv_1. apply Rinv_le_contravar; [lra|]. apply pow_R1_Rle. lra.
Qed.

(** * A controlled rotation: the observable does not change, the method returns -1 *)
Definition controlled_rx : pcall := PCallRot RotX 0 1 [1] [].
Lemma controlled_rx_made : exists g, make_param false controlled_rx = Ok g.
Proof. eexists. vm_compute. reflexivity. Qed.
Lemma basis_0_above x : x <> 0 -> basis 0 x = C0.
Proof. intros H. unfold basis. now rewrite (proj2 (N.eqb_neq _ _) H). Qed.
Lemma controlled_rx_idle v x : call_act (pcall_at controlled_rx v) (basis 0) x = basis 0 x.
Proof.
  unfold call_act, apply_mat. cbn [pcall_at controlled_rx call_targets call_controls].
  destruct (ctrl_ok _ x) eqn:E; [|reflexivity]. cbn in E. rewrite andb_true_r in E. apply eqb_prop in E.
  rewrite basis_0_above by (intros ->; discriminate).
  apply Csum_zero. intros j _. rewrite (basis_0_above (scatter [0] j x)); [ring|]. intros H.
  assert (Hb : N.testbit (scatter [0] j x) 1 = true).
  { rewrite scatter_out; [exact E|]. intros [H'|[]]. discriminate. }
  rewrite H in Hb. discriminate.
Qed.
Lemma inner_basis_0 n phi psi : psi 0 = C1 -> (forall x, x <> 0 -> psi x = C0) -> inner n phi psi = Cconj (phi 0).
Proof.
  intros H0 H1. unfold inner. rewrite (Csum_single (2 ^ n) _ 0); [|apply pow2_pos|intros x _ Hx; rewrite H1 by assumption; ring]. rewrite H0. ring.
Qed.
Lemma z_at_0 : pauli_phase 0 1 0 = C1.
Proof. unfold pauli_phase. cbn. Csolve. Qed.
Theorem controlled_wrong : exists c, built false [Turn controlled_rx "t"] c /\ required_n_qubits c = 2 /\
  o_herm z_on_0 = true /\ self_adjoint 2 (op_act z_on_0) /\ op_fits 2 z_on_0 /\
  (forall val v, derivable_pt_lim (fun v => energy 2 z_on_0 (with_value val "t" v) [Turn controlled_rx "t"]) v 0%R) /\
  forall eps L w, lanes_ok L ->
    runs (compute_expectation_gradient eps L z_on_0 (fun _ => Some 0%R) c) w (done (fun gr _ => gr "t"%string = Some (-1)%R)).
Proof.
  destruct controlled_rx_made as [g Hg]. exists (Circuit [IParam g "t"] [None]).
  assert (Hn : required_n_qubits (Circuit [IParam g "t"] [None]) = 2) by (vm_compute in Hg; injection Hg as <-; vm_compute; reflexivity).
  split; [split; [constructor; [|constructor]; split; [reflexivity|left; exact Hg]|reflexivity]|]. split; [exact Hn|].
  split; [reflexivity|]. split; [apply z_on_0_self_adjoint; lia|]. split; [apply z_on_0_fits; lia|]. split.
  - intros val v. eapply (dl_ext (fun _ => 1%R)).
    + intros v'. unfold energy, evolve. cbn [fold_left layer_act].
      rewrite (inner_ext 2 _ _ (basis 0) (basis 0)).
      * rewrite inner_basis_0; [reflexivity|reflexivity|apply basis_0_above].
      * intros x _. apply controlled_rx_idle.
      * intros x _. rewrite z_on_0_act, controlled_rx_idle. destruct (N.eq_dec x 0) as [->|Hx]; [rewrite z_at_0; Csolve|rewrite basis_0_above by assumption; ring].
    + apply derivable_pt_lim_const.
  - intros eps L w HL.
    assert (Hcs : forall u, gate_wf (pgate_at g u) /\ gate_fits 2 (pgate_at g u) /\ forall psi x, call_act (pcall_at controlled_rx u) psi x = gate_sem (pgate_at g u) psi x).
    { intros u. apply (call_sem false). - lia. - exact I. - apply (make_param_at false controlled_rx g u Hg). - repeat constructor. }
    assert (Hidle : forall u x, gate_sem (pgate_at g u) (basis 0) x = basis 0 x) by (intros u x; destruct (Hcs u) as (_ & _ & H); rewrite <- H; apply controlled_rx_idle).
    assert (Hco : param_coef g = 1%R /\ pauli_coef_of eps g = Ok 1%R /\ match g with PProb _ _ _ => False | _ => True end).
    { vm_compute in Hg. injection Hg as <-. cbn [param_coef pauli_coef_of]. repeat split. }
    destruct Hco as (Hp & Hpc & Hnp).
    eapply runs_weaken.
    { apply (single_gradient eps L z_on_0 (fun _ => Some 0%R) w g "t" 0%R 1%R HL); rewrite ?Hn; try assumption; try reflexivity.
      - apply z_on_0_fits; lia.
      - apply tiny_1. rewrite Hp, Rmult_1_l. apply Rabs_R1.
      - intros u. split; apply Hcs. }
    intros [gr w'|w'|] H; cbn [done] in *; try contradiction. rewrite H. f_equal. rewrite Hp, Hn.
    set (psi := gate_sem (pgate_at g 0) (basis 0)). assert (Epsi : psi = basis 0) by (apply functional_extensionality; intros x; apply Hidle). rewrite Epsi.
    rewrite inner_basis_0; [|rewrite Hidle; reflexivity|intros x Hx; rewrite Hidle; apply basis_0_above; assumption].
    rewrite z_on_0_act, z_at_0. unfold basis. rewrite N.eqb_refl. cbn. ring.
Qed.

(** * The inverse of a Pauli rotation with coefficient 2: the energy is cos 2v, stationary at 0; the method returns -1 *)
Definition double_x : pcall := PCallPauliRotation (Pauli (2, 0)%R 1 0) 1 [] [].
Lemma double_x_made : make_param false double_x = Ok (PPauliRotation true (GBase 1 0 0) (Pauli (2, 0)%R 1 0) 1).
Proof. reflexivity. Qed.
Lemma double_x_scale : turn_scale (pcall_opposite double_x) = (-2)%R.
Proof. cbn [turn_scale pcall_opposite double_x p_coef fst]. ring. Qed.
Lemma double_x_plain : plain_turn (pcall_opposite double_x).
Proof. split; reflexivity. Qed.
Lemma double_x_gen psi x : gen (pcall_opposite double_x) psi x = psi (N.lxor x 1).
Proof. rewrite gen_eq. cbn [pcall_opposite double_x generator p_bf p_pf]. unfold pauli_phase. rewrite !N.land_0_r. replace (mi_pow (popcount 0) * pauli_sign 0)%C with C1 by (cbn; Csolve). ring. Qed.
Lemma double_x_start psi : call_act (pcall_at (pcall_opposite double_x) 0) psi = psi.
Proof.
  apply functional_extensionality. intros x. rewrite (turn_eq _ _ _ _ double_x_plain). rewrite Rmult_0_r. unfold Rdiv. rewrite Rmult_0_l, cos_0, sin_0. Csolve.
Qed.
Lemma double_x_half psi : call_act (pcall_at (pcall_opposite double_x) PI) psi = fun x => (- psi x)%C.
Proof.
  apply functional_extensionality. intros x. rewrite (turn_eq _ _ _ _ double_x_plain), double_x_scale.
  replace (-2 * PI / 2)%R with (- PI)%R by field. rewrite cos_neg, sin_neg, cos_PI, sin_PI. Csolve.
Qed.
Theorem inverse_pauli_wrong : exists g c, make_param false double_x = Ok g /\ circuit_inverse (Circuit [IParam g "t"] [None]) = Ok c /\
  required_n_qubits c = 1 /\ o_herm z_on_0 = true /\ self_adjoint 1 (op_act z_on_0) /\ op_fits 1 z_on_0 /\
  derivable_pt_lim (fun v => energy 1 z_on_0 (with_value (fun _ => 0%R) "t" v) [Turn (pcall_opposite double_x) "t"]) 0%R 0%R /\
  forall eps L w, lanes_ok L ->
    runs (compute_expectation_gradient eps L z_on_0 (fun _ => Some 0%R) c) w (done (fun gr _ => gr "t"%string = Some (-1)%R)).
Proof.
  pose proof double_x_made as Hg. set (g := PPauliRotation _ _ _ _) in Hg.
  assert (Hi : exists g', p_inverse g = Ok g' /\ item_inverse (IParam g "t") = Ok (IParam g' "t") /\ param_coef g' = (-1)%R /\ (forall eps, pauli_coef_of eps g' = Ok 1%R) /\
    match g' with PProb _ _ _ => False | _ => True end /\ (forall u, pgate_at g' u = pgate_at g (- u))).
  { eexists. split; [reflexivity|]. split; [reflexivity|].
    cbn [param_coef]. split; [ring|]. split; [intros eps; reflexivity|]. split; [exact I|].
    intros u. cbn [pgate_at g]. f_equal. ring. }
  destruct Hi as (g' & Hg' & Hit & Hpc & Hpa & Hnp & Hat).
  exists g, (Circuit [IParam g' "t"] [None]). split; [exact Hg|].
  split; [unfold circuit_inverse; cbn [c_gates c_conds rev app]; unfold Circuit.mapR; rewrite Hit; reflexivity|].
  assert (Hn : required_n_qubits (Circuit [IParam g' "t"] [None]) = 1).
  { cbn [p_inverse g] in Hg'. injection Hg' as <-. vm_compute. reflexivity. }
  split; [exact Hn|]. split; [reflexivity|]. split; [apply z_on_0_self_adjoint; lia|]. split; [apply z_on_0_fits; lia|].
  assert (Hat' : forall u, make false (pcall_at (pcall_opposite double_x) u) = Ok (pgate_at g' u)).
  { intros u. rewrite Hat. replace (pcall_at (pcall_opposite double_x) u) with (pcall_at double_x (- u)) by (cbn [pcall_at pcall_opposite double_x]; f_equal; ring).
    apply (make_param_at false double_x g (- u) Hg). }
  split.
  - assert (Hpl : Forall plain_layer [Turn (pcall_opposite double_x) "t"]) by (constructor; [exact double_x_plain|constructor]).
    eapply dl_eq; [exact (energy_derivative 1 z_on_0 (fun _ => 0%R) _ "t" Hpl (z_on_0_self_adjoint 1 eq_refl))|].
    unfold evolve. cbn [fold_left layer_act rev app rdel rpsi extra]. rewrite double_x_start. rewrite String.eqb_refl, double_x_scale.
    rewrite (inner_ext 1 _ _ (basis 0) (fun x => (Ci * basis 0 (N.lxor x 1))%C)).
    + unfold inner. change (2 ^ 1) with 2. unfold Csum, Csuml. cbn [seqN]. vm_compute. ring.
    + intros x Hx. rewrite z_on_0_act. destruct (N.eq_dec x 0) as [->|Hx0]; [rewrite z_at_0; Csolve|rewrite basis_0_above by assumption; ring].
    + intros x Hx. rewrite double_x_start. rewrite double_x_gen. Csolve.
  - intros eps L w HL.
    assert (Hcs : forall u, gate_wf (pgate_at g' u) /\ gate_fits 1 (pgate_at g' u) /\ forall psi x, call_act (pcall_at (pcall_opposite double_x) u) psi x = gate_sem (pgate_at g' u) psi x).
    { intros u. apply (call_sem false). - lia. - split; reflexivity. - apply Hat'. - repeat constructor. }
    eapply runs_weaken.
    { apply (single_gradient eps L z_on_0 (fun _ => Some 0%R) w g' "t" 0%R 1%R HL); rewrite ?Hn; try assumption; try reflexivity.
      - apply z_on_0_fits; lia.
      - apply Hpa.
      - apply tiny_1. rewrite Hpc, Rmult_1_r. rewrite Rabs_left by lra. ring.
      - intros u. split; apply Hcs. }
    intros [gr w'|w'|] H; cbn [done] in *; try contradiction. rewrite H. f_equal. rewrite Hpc, Hn.
    replace (- PI / (-1 * 1))%R with PI by field.
    set (psi := gate_sem (pgate_at g' 0) (basis 0)).
    assert (Epsi : psi = basis 0) by (apply functional_extensionality; intros x; unfold psi; destruct (Hcs 0%R) as (_ & _ & E); rewrite <- E, double_x_start; reflexivity). rewrite Epsi.
    rewrite (inner_ext 1 _ _ (basis 0) (fun x => (- basis 0 x)%C)).
    + unfold inner. change (2 ^ 1) with 2. vm_compute. ring.
    + intros x Hx. rewrite z_on_0_act. destruct (N.eq_dec x 0) as [->|Hx0]; [rewrite z_at_0; Csolve|rewrite basis_0_above by assumption; ring].
    + intros x Hx. destruct (Hcs PI) as (_ & _ & E). rewrite <- E, double_x_half. reflexivity.
Qed.

(** * An observable on a qubit the circuit does not use *)
Lemma hbind_reaches {W T U} (p : host W T) (k : T -> host W U) w P o : runs p w (done P) -> (forall t w1, P t w1 -> k t w1 o) -> hbind p k w o.
Proof.
  intros [H [o1 Ho]] Hk. exists o1. split; [exact Ho|]. specialize (H o1 Ho). destruct o1 as [t w1|w1|]; cbn [done] in H; try contradiction. now apply Hk.
Qed.
Definition plain_rx : pcall := PCallRot RotX 0 1 [] [].
Theorem observable_outside : exists c, built false [Turn plain_rx "t"] c /\ Forall differentiable [Turn plain_rx "t"] /\
  o_herm x_on_1 = true /\ self_adjoint 2 (op_act x_on_1) /\ op_fits 2 x_on_1 /\
  forall eps L v w, lanes_ok L -> compute_expectation_gradient eps L x_on_1 (fun _ => Some v) c w HUndefined.
Proof.
  assert (Hg : exists g, make_param false plain_rx = Ok g) by (eexists; vm_compute; reflexivity). destruct Hg as [g Hg].
  exists (Circuit [IParam g "t"] [None]).
  assert (Hn : required_n_qubits (Circuit [IParam g "t"] [None]) = 1) by (vm_compute in Hg; injection Hg as <-; vm_compute; reflexivity).
  assert (Hb : built false [Turn plain_rx "t"] (Circuit [IParam g "t"] [None])) by (split; [constructor; [|constructor]; split; [reflexivity|left; exact Hg]|reflexivity]).
  assert (Hd : Forall differentiable [Turn plain_rx "t"]).
  { constructor; [|constructor]. split; [exact I|]. split; [|reflexivity]. cbn [plain_rx turn_scale]. rewrite Rabs_R1. rewrite <- Rinv_1. apply Rinv_le_contravar; [lra|]. apply pow_R1_Rle. lra. }
  assert (Hf : op_fits 2 x_on_1) by (constructor; [split; cbn; lia|constructor]).
  split; [exact Hb|]. split; [exact Hd|]. split; [reflexivity|].
  split; [apply all_real_self_adjoint; [cbn [all_real forallb p_coef]; unfold is_real; cbn; destruct (Req_EM_T 0 0); [reflexivity|congruence]|exact Hf]|]. split; [exact Hf|].
  intros eps L v w HL. unfold compute_expectation_gradient. cbn [x_on_1 o_herm hcheck]. cbn zeta. rewrite Hn.
  eapply hbind_reaches; [apply runs_ret; instantiate (1 := fun _ _ => True); exact I|]. intros _ w1 _.
  eapply hbind_reaches.
  { apply on_state_runs. instantiate (1 := fun _ _ => True). eapply runs_weaken; [apply set_zero_state_ok|]. intros [u w'|w'|] H; cbn [done] in *; try contradiction. exact I. }
  intros _ w2 _.
  eapply hbind_reaches.
  { apply on_state_runs. apply (circuit_plain_runs false [Turn plain_rx "t"] _ 1 L (fun _ => Some v) (fun _ => v)); [lia|assumption|exact Hb|eapply Forall_impl; [apply differentiable_typed|exact Hd]|rewrite Hn; apply N.le_refl|intros key _; reflexivity]. }
  intros _ w3 _.
  eapply hbind_reaches; [apply runs_modify; instantiate (1 := fun _ _ => True); exact I|]. intros _ w4 _.
  exists HUndefined. split; [|reflexivity].
  exists (fun _ => [0; 0; 0; 0]), (fun _ => RLeaf (seqN 1)). split; [intros _; apply reduction_exists|].
  assert (E : op_apply_to_state x_on_1 (2 ^ 1) (gw_bistate w4) (fun _ => [0; 0; 0; 0]) (fun _ => RLeaf (seqN 1)) = OutOfBounds) by (vm_compute; reflexivity).
  change (Op [Pauli C1 2 0] true false) with x_on_1. rewrite E. reflexivity.
Qed.

(** * The hypotheses can be met *)
Definition imaginary_x : pcall := PCallPauliRotation (Pauli Ci 1 0) 1 [] [].
Definition gradient_layers : list layer :=
  [Fixed (Call1 GH 0 [] []); Fixed (Call1 GX 1 [0] []); Turn plain_rx "a"; Turn (PCallPauliRotation (Pauli (3, 0)%R 1 2) 2 [] []) "a";
   Turn (PCallRot RotY 1 (- (1)) [] []) "b"].
Lemma small_52 x : (1 <= Rabs x)%R -> (/ 2 ^ 52 <= Rabs x)%R.
Proof. intros H. apply Rle_trans with 1%R; [|exact H]. rewrite <- Rinv_1. apply Rinv_le_contravar; [lra|]. apply pow_R1_Rle. lra. Qed.
Lemma gradient_example : exists c, built false gradient_layers c /\ Forall differentiable gradient_layers /\ required_n_qubits c = 2 /\
  layer_keys gradient_layers = ["a"; "a"; "b"]%string /\ o_herm z_on_0 = true /\ self_adjoint 2 (op_act z_on_0) /\ op_fits 2 z_on_0 /\ lanes_ok 1.
Proof.
  exists (Circuit [IGate (CElem (true, EStd GH (GBase 1 0 0))); IGate (CElem (true, EStd GX (GBase 2 1 1)));
    IParam (PRot true RotX (GBase 1 0 0) 1) "a"; IParam (PPauliRotation true (GBase 3 0 0) (Pauli (3, 0)%R 1 2) 2) "a";
    IParam (PRot false RotY (GBase 2 0 0) (- (1))) "b"] [None; None; None; None; None]).
  split.
  { split; [|reflexivity]. repeat (apply Forall2_cons || apply Forall2_nil); cbn [layer_item]; try reflexivity.
    - split; [reflexivity|left; reflexivity].
    - split; [reflexivity|left; reflexivity].
    - split; [reflexivity|right]. split; [exact I|]. exists (PRot true RotY (GBase 2 0 0) (- - (1))). split; [reflexivity|]. cbn [p_inverse]. do 2 f_equal. ring. }
  split.
  { repeat (apply Forall_cons || apply Forall_nil); cbn [differentiable].
    - repeat split.
    - repeat split.
    - split; [exact I|]. split; [|reflexivity]. apply small_52. cbn [turn_scale plain_rx]. rewrite Rabs_R1. lra.
    - split; [split; reflexivity|]. split; [apply small_52; cbn [turn_scale p_coef fst]; rewrite Rabs_right; lra|]. split; [reflexivity|]. split; [reflexivity|]. apply small_52. cbn [p_coef fst]. rewrite Rabs_right; lra.
    - split; [exact I|]. split; [|reflexivity]. apply small_52. cbn [turn_scale]. rewrite Rabs_Ropp, Rabs_R1. lra. }
  split; [vm_compute; reflexivity|]. split; [reflexivity|]. split; [reflexivity|]. split; [apply z_on_0_self_adjoint; lia|]. split; [apply z_on_0_fits; lia|]. right. exists 0. split; [lia|reflexivity].
Qed.
Lemma refuses_example : exists c, built false ([Fixed (Call1 GH 0 [] [])] ++ Turn imaginary_x "t" :: [Turn plain_rx "u"]) c /\
  Forall layer_typed [Fixed (Call1 GH 0 [] [])] /\ pcall_typed imaginary_x /\ refused (/ 2)%R imaginary_x /\ Forall differentiable [Turn plain_rx "u"].
Proof.
  exists (Circuit [IGate (CElem (true, EStd GH (GBase 1 0 0))); IParam (PPauliRotation true (GBase 1 0 0) (Pauli Ci 1 0) 1) "t"; IParam (PRot true RotX (GBase 1 0 0) 1) "u"] [None; None; None]).
  split.
  { split; [|reflexivity]. cbn [app]. repeat (apply Forall2_cons || apply Forall2_nil); cbn [layer_item]; try reflexivity; (split; [reflexivity|left; reflexivity]). }
  split; [repeat constructor|]. split; [split; reflexivity|]. split.
  { right. left. cbn [imaginary_x p_coef snd Ci]. rewrite Rabs_R1. lra. }
  constructor; [|constructor]. split; [exact I|]. split; [|reflexivity]. apply small_52. cbn [turn_scale plain_rx]. rewrite Rabs_R1. lra.
Qed.
