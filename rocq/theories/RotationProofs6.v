(** Where the rotation circuit differs from the evolution, and which operators are accepted. *)
From Verif Require Export RotationProofs5.
From Verif Require Import OperatorProofs2.
From Coq Require Import Lia Lra Psatz FunctionalExtensionality.
Open Scope N_scope.

Lemma layer_act_eq val theta p u x : layer_act val (layer_of theta p) u x =
  (Ccos (Cscale (theta / 2) (p_coef p)) * u x - Ci * Csin (Cscale (theta / 2) (p_coef p)) * string_act p u x)%C.
Proof.
  cbn [layer_act layer_of]. unfold call_act, string_act, pauli_act. cbn [call_targets call_controls call_matrix p_bf p_pf p_coef]. change (with_values [] []) with (@nil (N * bool)).
  unfold pauli_rotation_textbook. rewrite apply_mat_rot by apply bits_NoDup. f_equal. f_equal. apply apply_mat_mat_ext. intros i j _ _. unfold pauli_textbook. ring.
Qed.
Lemma tiny_lt : (tiny < 1)%R.
Proof. unfold tiny. rewrite <- Rinv_1. apply Rinv_lt_contravar; [|]; cbn; lra. Qed.
(** X + Z, half a turn, one repetition: |0> goes to |1>. *)
Lemma xz_half_turn x : x < 2 -> evolve (fun _ => 0%R) (repeat_layers (map (layer_of (PI / IZR 1)) (o_terms xz)) (Z.to_nat 1)) (basis 0) x = basis 1 x.
Proof.
  intros Hx. change (Z.to_nat 1) with 1%nat. cbn [repeat_layers xz o_terms map app]. unfold evolve. cbn [fold_left]. rewrite layer_act_eq. cbn [p_coef].
  assert (E1 : Ccos (Cscale (PI / IZR 1 / 2) C1) = C0 /\ Csin (Cscale (PI / IZR 1 / 2) C1) = C1).
  { unfold Cscale, C1. cbn [fst snd]. replace (PI / IZR 1 / 2 * 1)%R with (PI / 2)%R by field. rewrite Rmult_0_r, Ccos_real, Csin_real, cos_PI2, sin_PI2. split; reflexivity. }
  destruct E1 as [-> ->]. assert (E2 : forall y, layer_act (fun _ => 0%R) (layer_of (PI / IZR 1) (Pauli C1 1 0)) (basis 0) y = (- Ci * string_act (Pauli C1 1 0) (basis 0) y)%C).
  { intros y. rewrite layer_act_eq. cbn [p_coef]. assert (E1 : Ccos (Cscale (PI / IZR 1 / 2) C1) = C0 /\ Csin (Cscale (PI / IZR 1 / 2) C1) = C1).
    { unfold Cscale, C1. cbn [fst snd]. replace (PI / IZR 1 / 2 * 1)%R with (PI / 2)%R by field. rewrite Rmult_0_r, Ccos_real, Csin_real, cos_PI2, sin_PI2. split; reflexivity. }
    destruct E1 as [-> ->]. ring. }
  rewrite string_eq, !E2, string_eq. cbn [p_bf p_pf]. rewrite N.lxor_0_r. unfold basis.
  assert (Hc : x = 0 \/ x = 1) by lia. destruct Hc as [-> | ->]; unfold pauli_phase, pauli_sign, mi_pow; vm_compute N.lxor; vm_compute N.land; vm_compute parity; vm_compute popcount; cbn [N.eqb Pos.eqb]; c_eq; cbn; ring.
Qed.
Theorem rotation_not_exact : exists o angle k E d, o_herm o = true /\ real_coefs o /\ op_fits 1 o /\ evolution 1 o (basis 0) E /\
  add_observable_rotation_gate true o angle k c_new = Ok d /\
  forall L ps w, lanes_ok L -> w_amp w = basis 0 -> runs (circuit_update_plain 1 L ps d) w (done (fun _ w' => w_amp w' 0 = C0 /\ E angle 0 <> C0)).
Proof.
  assert (Hf : op_fits 1 xz) by (repeat constructor). pose proof PI2_1 as Hpi. pose proof tiny_lt as Ht. assert (Ha : (tiny <= Rabs PI)%R) by (rewrite Rabs_right; lra).
  destruct (rotation_appends true xz PI 1 eq_refl eq_refl) as (d & Hd & _). { repeat constructor. }
  exists xz, PI, 1%Z, xz_exp, d. split; [reflexivity|]. split; [repeat constructor|]. split; [exact Hf|]. split; [apply xz_evolution|]. split; [now rewrite Hd, new_add_circuit|].
  intros L ps w HL Hw. assert (Hd' : add_observable_rotation_gate true xz PI 1 c_new = Ok d) by now rewrite Hd, new_add_circuit.
  eapply runs_weaken; [apply (rotation_runs true xz PI 1 1 L ps w d eq_refl HL Hf Ha Hd')|]. intros [u w'|w'|] H; cbn [done] in *; try contradiction. rewrite Hw in H. split.
  - rewrite (H 0 eq_refl), xz_half_turn by reflexivity. reflexivity.
  - intros E. unfold xz_exp in E. rewrite xz_act, !string_eq in E. cbn [p_bf p_pf] in E. unfold basis, pauli_phase, pauli_sign, mi_pow in E. vm_compute N.lxor in E. vm_compute N.land in E. vm_compute parity in E. vm_compute popcount in E. cbn [N.eqb Pos.eqb] in E. change (PHASE_M90ROT (0 mod 4)) with C1 in E.
    pose proof sqrt2_pos as Hs. set (c := cos (PI / sqrt 2)) in E. set (s := sin (PI / sqrt 2)) in E. pose proof (sin2_cos2 (PI / sqrt 2)) as Hsc. fold c s in Hsc. unfold Rsqr in Hsc.
    assert (E1 : c = 0%R) by (apply (f_equal fst) in E; cbn in E; lra). assert (E2 : (s / sqrt 2 = 0)%R) by (apply (f_equal snd) in E; cbn in E; lra).
    assert (E3 : s = 0%R) by (replace s with (s / sqrt 2 * sqrt 2)%R by (field; lra); rewrite E2; ring). rewrite E1, E3 in Hsc. lra.
Qed.
(** ** The flag of a product *)
Definition xy_product : operator := op_mul (op_of_terms [Pauli C1 1 0]) (op_of_terms [Pauli C1 1 1]).
Lemma xy_product_eq : o_terms xy_product = [Pauli Ci 0 1] /\ o_herm xy_product = true.
Proof.
  assert (Hm : pauli_mul (Pauli C1 1 0) (Pauli C1 1 1) = Pauli Ci 0 1).
  { unfold pauli_mul. cbn [p_bf p_pf p_coef]. vm_compute N.lxor. f_equal.
    match goal with |- context [PHASE_90ROT ?k] => let v := eval vm_compute in k in change k with v end. simpl. ring. }
  assert (Hi : is_real Ci = false). { unfold is_real. destruct (Req_EM_T (snd Ci) 0) as [E|]; [|reflexivity]. simpl in E. exfalso. lra. }
  unfold xy_product, op_mul. cbn [o_terms op_of_terms flat_map map app o_herm]. rewrite Hm. split; [reflexivity|]. simpl. rewrite Hi. reflexivity.
Qed.
Lemma xx_product_refused vf angle k c : add_observable_rotation_gate vf (op_mul (op_of_terms [Pauli C1 1 0]) (op_of_terms [Pauli C1 1 0])) angle k c = Throw.
Proof.
  apply rotation_refused. left.
  assert (Hm : pauli_mul (Pauli C1 1 0) (Pauli C1 1 0) = Pauli C1 0 0).
  { unfold pauli_mul. cbn [p_bf p_pf p_coef]. vm_compute N.lxor. f_equal.
    match goal with |- context [PHASE_90ROT ?k] => let v := eval vm_compute in k in change k with v end. simpl. ring. }
  unfold op_mul. cbn [o_terms op_of_terms flat_map map app o_herm]. rewrite Hm. simpl. rewrite is_real_1. reflexivity.
Qed.
Theorem rotation_flag_wrong : exists a b d, o_herm a = true /\ o_herm b = true /\ op_fits 1 a /\ op_fits 1 b /\
  (forall vf angle k c, add_observable_rotation_gate vf (op_mul a a) angle k c = Throw) /\
  self_adjoint 1 (op_act (op_mul a a)) /\
  add_observable_rotation_gate true (op_mul a b) 2 1 c_new = Ok d /\
  forall L ps w, lanes_ok L -> w_amp w = basis 0 -> runs (circuit_update_plain 1 L ps d) w (done (fun _ w' => w_amp w' 0 = RtoC (exp 1))).
Proof.
  destruct xy_product_eq as [Et Eh]. pose proof tiny_lt as Ht. assert (Ha : (tiny <= Rabs 2)%R) by (rewrite Rabs_right; lra).
  assert (Hu : Forall (fun p => p_bf p < two64 /\ p_pf p < two64) (o_terms xy_product)) by (rewrite Et; repeat constructor).
  destruct (rotation_appends true xy_product 2 1 Eh eq_refl Hu) as (d & Hd & _). assert (Hd' : add_observable_rotation_gate true xy_product 2 1 c_new = Ok d) by now rewrite Hd, new_add_circuit.
  exists (op_of_terms [Pauli C1 1 0]), (op_of_terms [Pauli C1 1 1]), d. fold xy_product.
  split; [unfold op_of_terms, all_real; simpl; now rewrite is_real_1|]. split; [unfold op_of_terms, all_real; simpl; now rewrite is_real_1|]. split; [repeat constructor|]. split; [repeat constructor|]. split; [intros; apply xx_product_refused|].
  split.
  { assert (Hm : pauli_mul (Pauli C1 1 0) (Pauli C1 1 0) = Pauli C1 0 0).
    { unfold pauli_mul. cbn [p_bf p_pf p_coef]. vm_compute N.lxor. f_equal.
      match goal with |- context [PHASE_90ROT ?k] => let v := eval vm_compute in k in change k with v end. simpl. ring. }
    apply real_coefs_sa; unfold op_fits, real_coefs, op_mul; cbn [o_terms op_of_terms flat_map map app]; rewrite Hm; repeat constructor. }
  split; [exact Hd'|]. intros L ps w HL Hw. assert (Hf : op_fits 1 xy_product) by (unfold op_fits; rewrite Et; repeat constructor).
  eapply runs_weaken; [apply (rotation_runs true xy_product 2 1 1 L ps w d eq_refl HL Hf Ha Hd')|]. intros [u w'|w'|] H; cbn [done] in *; try contradiction.
  rewrite (H 0 eq_refl), Hw, Et. change (Z.to_nat 1) with 1%nat. cbn [repeat_layers map app]. unfold evolve. cbn [fold_left]. rewrite layer_act_eq, string_eq. cbn [p_coef p_bf p_pf]. rewrite N.lxor_0_r.
  assert (Eb : basis 0 0 = C1) by reflexivity. rewrite Eb. unfold pauli_phase, pauli_sign, mi_pow. vm_compute N.land. vm_compute parity. vm_compute popcount. cbn [N.eqb Pos.eqb].
  unfold Ccos, Csin, Cscale, Ci. cbn [fst snd]. replace (2 / IZR 1 / 2 * 0)%R with 0%R by field. replace (2 / IZR 1 / 2 * 1)%R with 1%R by field. rewrite cos_0, sin_0. c_eq; cbn; unfold cosh, sinh; field.
Qed.
Lemma commute_iff p q : commute p q <-> anticommute p q = false \/ p_coef p = C0 \/ p_coef q = C0.
Proof.
  split.
  - intros H. destruct (anticommute p q) eqn:Ea; [right; now apply commute_not_anti|now left].
  - intros [H|H]; [now apply strings_commute|]. intros u x. rewrite !pauli_act_eq. destruct H as [->| ->]; ring.
Qed.
Lemma xz_instance : exists E d, real_coefs xz /\ op_fits 1 xz /\ evolution 1 xz (basis 0) E /\ add_observable_rotation_gate true xz 1 3 c_new = Ok d /\
  length (c_gates d) = 6%nat /\ apart_weight anticommute (o_terms xz) = 1%R.
Proof.
  assert (Hf : op_fits 1 xz) by (repeat constructor). destruct (evolution_exists 1 xz (basis 0) Hf) as [E HE].
  destruct (rotation_appends true xz 1 3 eq_refl eq_refl) as (d & Hd & Hl). { repeat constructor. }
  exists E, d. split; [repeat constructor|]. split; [exact Hf|]. split; [exact HE|]. split; [now rewrite Hd, new_add_circuit|]. split.
  - rewrite Hl. destruct (Rlt_dec _ _) as [H|_]; [|reflexivity]. pose proof tiny_lt. rewrite Rabs_R1 in H. unfold tiny in *. lra.
  - cbn [xz o_terms apart_weight]. unfold Rsuml. cbn [map fold_right]. change (anticommute (Pauli C1 1 0) (Pauli C1 0 1)) with true. cbn [p_coef fst C1]. rewrite Rabs_R1. ring.
Qed.
