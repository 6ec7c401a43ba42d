(** The executions of the power method. *)
From Verif Require Export GroundProofs GatesProofs5.
From Coq Require Import Lia Lra Psatz.
Open Scope N_scope.

(** ** The default shift is an upper bound *)
Lemma real_coefs_all o : real_coefs o -> all_real (o_terms o) = true.
Proof. unfold real_coefs, all_real. rewrite Forall_forall, forallb_forall. intros H p Hp. unfold is_real. destruct (Req_EM_T _ _); [reflexivity|]. exfalso. auto. Qed.
Lemma real_coefs_sa n o : op_fits n o -> real_coefs o -> self_adjoint n (op_act o).
Proof. intros Hf H. destruct o as [l h v]. apply all_real_self_adjoint; [exact (real_coefs_all _ H)|exact Hf]. Qed.
Lemma pauli_bounded n p phi : pauli_fits n p -> snd (p_coef p) = 0%R -> (Rabs (Re (inner n phi (pauli_act p phi))) <= Rabs (fst (p_coef p)) * sqnorm n phi)%R.
Proof.
  intros Hf Hr. set (z := inner n phi (pauli_act p phi)). assert (Hsa : self_adjoint n (pauli_act p)).
  { assert (H : self_adjoint n (op_act (Op [p] true false))). { apply real_coefs_sa; [now constructor|constructor; [exact Hr|constructor]]. }
    intros a b. assert (E : forall v x, op_act (Op [p] true false) v x = pauli_act p v x) by (intros v x; unfold op_act, terms_act, Csuml; cbn; ring).
    specialize (H a b). rewrite (inner_ext n a (op_act (Op [p] true false) b) a (pauli_act p b)) in H by (intros; auto).
    rewrite (inner_ext n (op_act (Op [p] true false) a) b (pauli_act p a) b) in H by (intros; auto). exact H. }
  assert (E : sqnorm n (pauli_act p phi) = (fst (p_coef p) * fst (p_coef p) * sqnorm n phi)%R).
  { enough (H : RtoC (sqnorm n (pauli_act p phi)) = RtoC (fst (p_coef p) * fst (p_coef p) * sqnorm n phi)) by (injection H as H; exact H).
    rewrite <- inner_self, <- Hsa. rewrite (inner_ext n phi _ phi (fun x => RtoC (fst (p_coef p) * fst (p_coef p)) * phi x)%C); [|reflexivity|].
    - unfold inner. rewrite (Csum_ext _ _ (fun x => RtoC (fst (p_coef p) * fst (p_coef p)) * (Cconj (phi x) * phi x))%C) by (intros; ring).
      rewrite Csum_mul_l. fold (inner n phi phi). rewrite inner_self. now rewrite <- RtoC_mul.
    - intros x _. rewrite !pauli_act_eq. rewrite N.lxor_assoc, N.lxor_nilpotent, N.lxor_0_r.
      replace (p_coef p) with (RtoC (fst (p_coef p))) by (destruct (p_coef p) as [u v]; cbn in Hr; subst v; reflexivity). cbn [RtoC fst]. rewrite RtoC_mul.
      transitivity (RtoC (fst (p_coef p)) * RtoC (fst (p_coef p)) * (pauli_phase (p_bf p) (p_pf p) x * pauli_phase (p_bf p) (p_pf p) (N.lxor x (p_bf p))) * phi x)%C; [ring|].
      rewrite pauli_phase_sq. ring. }
  pose proof (cauchy n phi (pauli_act p phi)) as H. rewrite E in H. fold z in H. pose proof (sqnorm_nonneg n phi) as Hs.
  assert (H1 : (Re z * Re z <= Cnorm2 z)%R). { unfold Cnorm2, Re. destruct z as [u v]. cbn. pose proof (Rle_0_sqr v). unfold Rsqr in *. lra. }
  apply Rsqr_incr_0_var; [|apply Rmult_le_pos; [apply Rabs_pos|exact Hs]]. unfold Rsqr. rewrite <- Rabs_mult.
  rewrite (Rabs_right (Re z * Re z)) by (apply Rle_ge, Rle_0_sqr).
  replace (Rabs (fst (p_coef p)) * sqnorm n phi * (Rabs (fst (p_coef p)) * sqnorm n phi))%R with ((Rabs (fst (p_coef p)) * Rabs (fst (p_coef p))) * (sqnorm n phi * sqnorm n phi))%R by ring.
  rewrite <- Rabs_mult, (Rabs_right (_ * _)) by (apply Rle_ge, Rle_0_sqr). lra.
Qed.
Lemma inner_op_cons n phi p l h v : inner n phi (op_act (Op (p :: l) h v) phi) = (inner n phi (pauli_act p phi) + inner n phi (op_act (Op l h v) phi))%C.
Proof.
  rewrite (inner_ext n phi (op_act (Op (p :: l) h v) phi) phi (fun x => pauli_act p phi x + C1 * op_act (Op l h v) phi x)%C); [|reflexivity|].
  - rewrite inner_linear. ring.
  - intros x _. unfold op_act, terms_act, Csuml. cbn [o_terms map fold_right]. ring.
Qed.
Theorem default_shift_bounds n o : op_fits n o -> real_coefs o -> energy_at_most n o (coef_sum o) /\ energy_at_least n o (- coef_sum o)%R.
Proof.
  destruct o as [l h v]. unfold op_fits, real_coefs, coef_sum, energy_at_most, energy_at_least. cbn [o_terms]. intros Hf Hr.
  enough (H : forall phi, (Rabs (Re (inner n phi (op_act (Op l h v) phi))) <= Rsuml (fun p => Rabs (fst (p_coef p))) l * sqnorm n phi)%R).
  { split; intros phi; specialize (H phi); set (z := Re _) in *; pose proof (Rle_abs z) as Hz; pose proof (Rle_abs (- z)) as Hz'; rewrite Rabs_Ropp in Hz'; lra. }
  intros phi. induction l as [|p l IH].
  - unfold op_act, terms_act, Rsuml. cbn. unfold inner. rewrite (Csum_ext _ _ (fun _ => C0)) by (intros; ring).
    rewrite Csum_zero by reflexivity. cbn. rewrite Rabs_R0. lra.
  - inversion_clear Hf. inversion_clear Hr. rewrite inner_op_cons. unfold Rsuml in *. cbn [map fold_right]. pose proof (pauli_bounded n p phi) as Hp.
    assert (E : Re (inner n phi (pauli_act p phi) + inner n phi (op_act (Op l h v) phi))%C = (Re (inner n phi (pauli_act p phi)) + Re (inner n phi (op_act (Op l h v) phi)))%R) by reflexivity.
    rewrite E. eapply Rle_trans; [apply Rabs_triang|]. rewrite Rmult_plus_distr_r. apply Rplus_le_compat; [now apply Hp|now apply IH].
Qed.

(** ** Executions *)
Section Runs.
  Variables (o : operator) (n : N).
  Hypothesis Hn0 : 0 < n.
  Hypothesis Hn : n <= 63.
  Hypothesis Hf : op_fits n o.

  Lemma apply_to_state_ok w : sets (2 ^ n) (apply_to_state o n) w (op_act o (w_amp w)).
  Proof using All.
    split.
    - intros out (scheds & trees & Ht & Ho). pose proof (op_apply_to_state_safe o n Hn Hf (w_amp w) scheds trees Ht) as H.
      destruct (op_apply_to_state o (2 ^ n) (w_amp w) scheds trees) as [r| | |]; try contradiction. subst out. cbn [done].
      unfold only_amplitudes. cbn. repeat split. intros x Hx. now rewrite (H x Hx).
    - destruct (op_apply_to_state_live o n Hn Hf (w_amp w) (fun _ => RLeaf (seqN (N.of_nat (length (o_terms o)))))) as (scheds & r & E).
      eexists. exists scheds, (fun _ => RLeaf (seqN (N.of_nat (length (o_terms o))))). split; [intros; apply reduction_exists|]. rewrite E. reflexivity.
  Qed.
  Lemma expectation_value_ok w : returns (expectation_value o n) w (inner n (w_amp w) (op_act o (w_amp w))).
  Proof using All.
    split.
    - intros out (t & Ht & ->). now rewrite (op_expectation_correct o n Hn Hf (w_amp w) t Hn0 Ht).
    - eexists. exists (RLeaf (op_iters o (2 ^ n))). split; [apply reduction_exists|reflexivity].
  Qed.
  Lemma default_mu_ok w : returns (default_mu o) w (coef_sum o).
  Proof.
    assert (E : forall t, reduction_of (o_terms o) t -> reduce 0%R Rplus (fun p => Some (Rabs (fst (p_coef p)))) t = Some (coef_sum o)).
    { intros t Ht. rewrite (reduce_correct 0%R Rplus Rplus_comm (fun a b c => eq_sym (Rplus_assoc a b c)) Rplus_0_l (fun p => Some (Rabs (fst (p_coef p)))) (fun p => Rabs (fst (p_coef p))) (o_terms o) t Ht) by reflexivity.
      now rewrite Rsuml_msum. }
    split.
    - intros out (t & Ht & ->). now rewrite (E t Ht).
    - eexists. exists (RLeaf (o_terms o)). split; [apply reduction_exists|reflexivity].
  Qed.
  Lemma realized_mu_ok mu w : returns (realized_mu o mu) w (shift_of o mu).
  Proof. unfold realized_mu. eapply returns_bind; [apply default_mu_ok|]. unfold shift_of. destruct mu; apply runs_ret; reflexivity. Qed.

  Variable mu : C.
  (** one round before the normalisation *)
  Lemma round_ok w {T} (k : host world T) Q :
    (forall w', only_amplitudes (2 ^ n) (shifted o mu (w_amp w)) w w' -> runs k w' Q) ->
    runs (tmp_state <~ hget w_amp;; apply_to_state o n;~ add_state_vector_with_coef n (- mu)%C false (2 ^ n) tmp_state;~ k) w Q.
  Proof using All.
    intros H. eapply returns_bind; [apply runs_get; reflexivity|].
    eapply runs_bind_done; [apply apply_to_state_ok|]. intros _ w1 (Ha & Hb & Hc & Hd).
    eapply runs_bind_done; [apply add_ok; right; lia|]. intros _ w2 (Ha' & Hb' & Hc' & Hd'). apply H.
    split; [|repeat split; congruence]. intros x Hx. rewrite Ha' by assumption. cbn. rewrite Ha by assumption. unfold shifted. ring.
  Qed.
  Definition along (c : R) (phi : state) (w : world) : Prop := (0 < c)%R /\ forall x, x < 2 ^ n -> w_amp w x = Cscale c (phi x).
  Lemma shifted_along c phi w x : along c phi w -> x < 2 ^ n -> shifted o mu (w_amp w) x = Cscale c (shifted o mu phi x).
  Proof using All.
    intros [_ H] Hx. rewrite (shifted_local n o mu Hf (w_amp w) (fun x => C0 + RtoC c * phi x)%C); [|intros y Hy; rewrite (H y Hy); c_eq; cbn; ring|exact Hx].
    rewrite shifted_linear. assert (E : shifted o mu (fun _ => C0) x = C0).
    { pose proof (shifted_linear o mu (fun _ => C0) (fun _ => C0) (- C1)%C x) as E. rewrite (shifted_local n o mu Hf _ (fun _ => C0)) in E by (intros; try ring; assumption). 
      rewrite E at 1. ring. }
    rewrite E. c_eq; cbn; ring.
  Qed.
  Lemma vanish phi : sqnorm n phi = 0%R -> sqnorm n (shifted o mu phi) = 0%R.
  Proof using All.
    intros H. rewrite (sqnorm_ext n _ (fun _ => C0)).
    - unfold sqnorm. rewrite (Rsuml_ext _ (fun _ => (0 * 0)%R)) by (intros; unfold Cnorm2; cbn; ring). rewrite Rsuml_scale. ring.
    - intros x Hx. rewrite (shifted_local n o mu Hf phi (fun x => C0 + C0 * C0)%C); [|intros y Hy|exact Hx].
      + rewrite shifted_linear. assert (E : shifted o mu (fun _ => C0) x = C0).
        { pose proof (shifted_linear o mu (fun _ => C0) (fun _ => C0) (- C1)%C x) as E. rewrite (shifted_local n o mu Hf _ (fun _ => C0)) in E by (intros; try ring; assumption). rewrite E at 1. ring. }
        rewrite E. ring.
      + transitivity C0; [|ring]. apply Cnorm2_zero. eapply (Rsuml_zero (fun x => Cnorm2 (phi x)) (seqN (2 ^ n))); [intros; apply Cnorm2_nonneg|exact H|now apply in_seqN].
  Qed.
  Lemma vanish_later i k psi : (i <= k)%nat -> sqnorm n (shifted_power o mu i psi) = 0%R -> sqnorm n (shifted_power o mu k psi) = 0%R.
  Proof using All. induction 1 as [|k _ IH]; [auto|]. intros H. cbn [shifted_power]. apply vanish. auto. Qed.
  Lemma sqnorm_along c phi w : along c phi w -> sqnorm n (w_amp w) = (c * c * sqnorm n phi)%R.
  Proof. intros [_ H]. rewrite (sqnorm_ext n _ (fun x => Cscale c (phi x))) by exact H. apply sqnorm_real_scale. Qed.
  (** one round *)
  Lemma round_normalize_ok psi i c w {T} (k : host world T) Q : along c (shifted_power o mu i psi) w -> sqnorm n (shifted_power o mu (S i) psi) <> 0%R ->
    (forall w', along (/ sqrt (sqnorm n (shifted_power o mu (S i) psi))) (shifted_power o mu (S i) psi) w' -> runs k w' Q) ->
    runs (tmp_state <~ hget w_amp;; apply_to_state o n;~ add_state_vector_with_coef n (- mu)%C false (2 ^ n) tmp_state;~ normalize n;~ k) w Q.
  Proof using All.
    intros Ha Hnz Hk. set (phi := shifted_power o mu (S i) psi) in *. apply round_ok. intros w1 (H1 & _).
    assert (Ha1 : along c phi w1). { split; [apply Ha|]. intros x Hx. rewrite H1 by assumption. now apply shifted_along. }
    assert (Hs := sqnorm_along c phi w1 Ha1). pose proof (sqnorm_nonneg n phi) as Hp. destruct Ha as [Hc _].
    eapply runs_bind_done; [apply normalize_ok; rewrite Hs; apply Rmult_integral_contrapositive_currified; [apply Rmult_integral_contrapositive_currified; lra|exact Hnz]|]. intros _ w2 (H2 & _). apply Hk.
    assert (Hsq : (0 < sqrt (sqnorm n phi))%R) by (apply sqrt_lt_R0; lra).
    split; [now apply Rinv_0_lt_compat|]. intros x Hx. rewrite H2 by assumption. destruct Ha1 as [_ Ha1]. rewrite Ha1, Hs by assumption.
    rewrite sqrt_mult by nra. rewrite sqrt_square by lra. unfold Cscale. cbn [fst snd]. fold phi. clearbody phi. f_equal; field; split; lra.
  Qed.
  Lemma power_loop_ok psi k : forall i c w, along c (shifted_power o mu i psi) w -> sqnorm n (shifted_power o mu (k + i) psi) <> 0%R ->
    runs (power_loop o n mu k) w (done (fun _ w' => along (match k with O => c | _ => / sqrt (sqnorm n (shifted_power o mu (k + i) psi)) end)%R (shifted_power o mu (k + i) psi) w')).
  Proof using All.
    induction k as [|k IH]; intros i c w Ha Hnz; [apply runs_ret; exact Ha|]. cbn [power_loop].
    eapply round_normalize_ok; [exact Ha| |].
    { intros E. apply Hnz. eapply vanish_later; [|exact E]. lia. }
    intros w' Ha'. replace (S k + i)%nat with (k + S i)%nat in * by lia. eapply runs_weaken; [apply (IH _ _ _ Ha'); exact Hnz|].
    intros [u w2|w2|] H; cbn [done] in *; try contradiction. destruct k; [exact H|exact H].
  Qed.
  Lemma normalize_undefined w : sqnorm n (w_amp w) = 0%R -> undefined (normalize n) w.
  Proof. intros H. unfold normalize. eapply returns_bind; [apply squared_norm_ok|]. rewrite H, sqrt_0. destruct (Req_EM_T 0 0); [|lra]. split; [intros ? <-; reflexivity|eexists; reflexivity]. Qed.
  Lemma power_loop_undefined psi k : forall i c w, along c (shifted_power o mu i psi) w -> (0 < k)%nat -> sqnorm n (shifted_power o mu (k + i) psi) = 0%R ->
    undefined (power_loop o n mu k) w.
  Proof using All.
    induction k as [|k IH]; intros i c w Ha Hk Hz; [lia|]. cbn [power_loop]. destruct (Req_dec (sqnorm n (shifted_power o mu (S i) psi)) 0) as [E|E].
    - apply round_ok. intros w1 (H1 & _). assert (Ha1 : along c (shifted_power o mu (S i) psi) w1). { split; [apply Ha|]. intros x Hx. rewrite H1 by assumption. now apply shifted_along. }
      assert (Hs := sqnorm_along c _ w1 Ha1). rewrite E, Rmult_0_r in Hs.
      eapply runs_bind; [apply (normalize_undefined w1 Hs)| | |]; [intros ? ? [=]|intros ? [=]|reflexivity].
    - eapply round_normalize_ok; [exact Ha|exact E|]. intros w' Ha'. replace (S k + i)%nat with (k + S i)%nat in * by lia. destruct k as [|k]; [contradiction|].
      eapply IH; [exact Ha'|lia|exact Hz].
  Qed.
End Runs.
