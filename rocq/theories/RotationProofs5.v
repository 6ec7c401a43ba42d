(** The rotation circuit against the evolution. *)
From Verif Require Export RotationProofs4.
From Verif Require Import OperatorProofs2.
From Coq Require Import Lia Lra Psatz FunctionalExtensionality.
Open Scope N_scope.

Definition tiny : R := (/ 10 ^ 12)%R.
(** ** Refusals *)
Lemma rotation_refused vf o angle k c : o_herm o = false \/ (k <= 0)%Z -> add_observable_rotation_gate vf o angle k c = Throw.
Proof.
  unfold add_observable_rotation_gate. intros [H|H]; [now rewrite H|]. destruct (negb (o_herm o)); [reflexivity|]. apply Z.leb_le in H. now rewrite H.
Qed.
Lemma rotation_built vf o angle k : o_herm o = true -> (0 < k)%Z -> (tiny <= Rabs angle)%R -> Forall u64_pauli (o_terms o) ->
  exists d, built vf (repeat_layers (map (layer_of (angle / IZR k)) (o_terms o)) (Z.to_nat k)) d /\
    forall c, add_observable_rotation_gate vf o angle k c = Ok (add_circuit c d).
Proof.
  intros Hh Hk Ha Hu. destruct (repeat_rotations_ok vf (angle / IZR k) (o_terms o) (Z.to_nat k) Hu) as (d & Hb & Hd). exists d. split; [exact Hb|]. intros c.
  unfold add_observable_rotation_gate. rewrite Hh. cbn [negb]. assert (Hz : (k <=? 0)%Z = false) by (apply Z.leb_gt; exact Hk). rewrite Hz. destruct (Rlt_dec _ _) as [Hl|_]; [unfold tiny in Ha; lra|]. apply Hd.
Qed.
Lemma rotation_small vf o angle k c : o_herm o = true -> (0 < k)%Z -> (Rabs angle < tiny)%R -> add_observable_rotation_gate vf o angle k c = Ok c.
Proof.
  intros Hh Hk Ha. unfold add_observable_rotation_gate. rewrite Hh. cbn [negb]. assert (Hz : (k <=? 0)%Z = false) by (apply Z.leb_gt; exact Hk). rewrite Hz. destruct (Rlt_dec _ _) as [_|Hl]; [reflexivity|]. unfold tiny in Ha. lra.
Qed.
Theorem rotation_appends vf o angle k : o_herm o = true -> (0 < k)%Z -> Forall (fun p => p_bf p < two64 /\ p_pf p < two64) (o_terms o) ->
  exists d, (forall c, add_observable_rotation_gate vf o angle k c = Ok (add_circuit c d)) /\
    length (c_gates d) = if Rlt_dec (Rabs angle) tiny then 0%nat else (Z.to_nat k * length (o_terms o))%nat.
Proof.
  intros Hh Hk Hu. destruct (Rlt_dec (Rabs angle) tiny) as [Ha|Ha].
  - exists c_new. split; [|reflexivity]. intros c. rewrite add_circuit_nil. now apply rotation_small.
  - destruct (rotation_built vf o angle k Hh Hk (Rnot_lt_le _ _ Ha) Hu) as (d & [Hb _] & Hd). exists d. split; [exact Hd|]. apply Forall2_len in Hb. rewrite <- Hb, length_repeat_layers, map_length. reflexivity.
Qed.
Lemma accepted vf o angle k c d : add_observable_rotation_gate vf o angle k c = Ok d -> o_herm o = true /\ (0 < k)%Z.
Proof.
  unfold add_observable_rotation_gate. destruct (o_herm o); [|discriminate]. cbn [negb]. destruct (Z.leb_spec k 0); [discriminate|]. intros _. split; [reflexivity|lia].
Qed.
(** ** Time scaled to one repetition *)
Lemma d_scale s t : derivable_pt_lim (fun t => s * t)%R t s.
Proof. pose proof (derivable_pt_lim_scal (fun t => t) s t 1 (derivable_pt_lim_id t)) as H. rewrite Rmult_1_r in H. exact H. Qed.
Lemma cd_scale (E : R -> C) s t d : cderivative E (s * t)%R d -> cderivative (fun t => E (s * t)%R) t (Cscale s d).
Proof.
  intros [H1 H2]. pose proof (d_scale s t) as Hs.
  split; cbn [fst snd Cscale].
  - rewrite Rmult_comm. exact (derivable_pt_lim_comp (fun t => s * t)%R (fun t => fst (E t)) t _ _ Hs H1).
  - rewrite Rmult_comm. exact (derivable_pt_lim_comp (fun t => s * t)%R (fun t => snd (E t)) t _ _ Hs H2).
Qed.
Lemma evolution_scaled n o psi E theta : real_coefs o -> evolution n o psi E ->
  forall t x, x < 2 ^ n -> cderivative (fun t => E (theta * t)%R x) t (- Ci * ham (rev (map (angle_of theta) (o_terms o))) (E (theta * t)%R) x)%C.
Proof.
  intros Hr [_ HE] t x Hx. eapply cd_eq; [apply (cd_scale (fun s => E s x) theta t), HE, Hx|]. rewrite ham_rev, ham_op by assumption. set (A := op_act o _ x). destruct A as [a b]. c_eq; cbn; field.
Qed.
Lemma rev_fits n o theta : op_fits n o -> Forall (fun ap => pauli_fits n (snd ap)) (rev (map (angle_of theta) (o_terms o))).
Proof. intros H. apply Forall_rev. unfold op_fits in H. induction H; constructor; assumption. Qed.
Lemma rounds_error n o psi E theta k apart : op_fits n o -> real_coefs o -> evolution n o psi E ->
  (forall p q, In p (o_terms o) -> In q (o_terms o) -> apart p q = false -> commute p q) ->
  (distance n (rounds (rev (map (angle_of theta) (o_terms o))) k psi) (E (theta * INR k)%R) <= INR k * (theta * theta / 4 * apart_weight apart (o_terms o) * vnorm n psi))%R.
Proof.
  intros Hf Hr HE Hc. pose proof (all_rounds n (rev (map (angle_of theta) (o_terms o))) psi (fun t => E (theta * t)%R) k (rev_fits n o theta Hf)) as H. cbv beta in H.
  eapply Rle_trans; [apply H|].
  - intros x Hx. rewrite Rmult_0_r. destruct HE as [HE _]. now apply HE.
  - intros t x Hx. now apply (evolution_scaled n o psi).
  - rewrite kappa_rev, kappa_weight. apply Rmult_le_compat_l; [apply pos_INR|]. pose proof (apart_weight_le apart (o_terms o) Hc) as Hw. pose proof (vnorm_nonneg n psi).
    assert (0 <= theta * theta)%R by nra. replace (theta * theta / 2 * apart_weight anticommute (o_terms o) * vnorm n psi / 2)%R with ((theta * theta / 4 * vnorm n psi) * apart_weight anticommute (o_terms o))%R by field.
    replace (theta * theta / 4 * apart_weight apart (o_terms o) * vnorm n psi)%R with ((theta * theta / 4 * vnorm n psi) * apart_weight apart (o_terms o))%R by ring. apply Rmult_le_compat_l; [|exact Hw]. apply Rmult_le_pos; lra.
Qed.
Lemma distance_ext n a b c : (forall x, x < 2 ^ n -> a x = b x) -> distance n a c = distance n b c.
Proof. intros H. apply vnorm_ext. intros x Hx. now rewrite H. Qed.
Lemma keys_none theta ts k : layer_keys (repeat_layers (map (layer_of theta) ts) k) = [].
Proof.
  assert (H : forall l, In l (repeat_layers (map (layer_of theta) ts) k) -> exists p, l = layer_of theta p).
  { apply Forall_forall. apply repeat_layers_Forall. apply Forall_forall. intros l Hl. apply in_map_iff in Hl. destruct Hl as (p & <- & _). now exists p. }
  revert H. generalize (repeat_layers (map (layer_of theta) ts) k). intros ls. induction ls as [|l ls IH]; intros H; [reflexivity|]. unfold layer_keys in *. cbn [flat_map]. rewrite IH by (intros; apply H; now right).
  destruct (H l (or_introl eq_refl)) as [p ->]. reflexivity.
Qed.
Lemma rotation_runs vf o angle k n L ps w d : n < 64 -> lanes_ok L -> op_fits n o -> (tiny <= Rabs angle)%R -> add_observable_rotation_gate vf o angle k c_new = Ok d ->
  runs (circuit_update_plain n L ps d) w (done (fun _ w' => forall x, x < 2 ^ n -> w_amp w' x = evolve (fun _ => 0%R) (repeat_layers (map (layer_of (angle / IZR k)) (o_terms o)) (Z.to_nat k)) (w_amp w) x)).
Proof.
  intros Hn HL Hf Ha Hd. destruct (accepted _ _ _ _ _ _ Hd) as [Hh Hk].
  destruct (rotation_built vf o angle k Hh Hk Ha) as (d' & Hb & Hd'). { eapply Forall_impl; [|exact Hf]. intros p Hp. now apply (fits_u64 n). }
  rewrite Hd', new_add_circuit in Hd. injection Hd as ->.
  assert (Hty : Forall layer_typed (repeat_layers (map (layer_of (angle / IZR k)) (o_terms o)) (Z.to_nat k))).
  { apply repeat_layers_Forall, Forall_map. eapply Forall_impl; [|exact Hf]. intros p Hp. cbn [layer_of layer_typed call_typed]. now apply (fits_u64 n). }
  eapply runs_weaken.
  - apply (circuit_plain_runs vf _ d n L ps (fun _ => 0%R) w Hn HL Hb Hty); [|intros key; rewrite keys_none; intros []].
    apply (built_required vf _ d n Hb Hty). apply repeat_layers_Forall, Forall_map. eapply Forall_impl; [|exact Hf]. intros p Hp. now apply layer_fits.
  - intros [u w'|w'|] H; cbn [done] in *; try contradiction. exact H.
Qed.
Theorem rotation_error vf o angle k apart n L ps w E d : n < 64 -> lanes_ok L -> op_fits n o -> real_coefs o -> (tiny <= Rabs angle)%R ->
  evolution n o (w_amp w) E -> (forall p q, In p (o_terms o) -> In q (o_terms o) -> apart p q = false -> commute p q) ->
  add_observable_rotation_gate vf o angle k c_new = Ok d ->
  runs (circuit_update_plain n L ps d) w (done (fun _ w' =>
    (distance n (w_amp w') (E angle) <= angle * angle / (4 * IZR k) * apart_weight apart (o_terms o) * vnorm n (w_amp w))%R)).
Proof.
  intros Hn HL Hf Hr Ha HE Hc Hd. pose proof (accepted _ _ _ _ _ _ Hd) as [_ Hk]. eapply runs_weaken; [apply (rotation_runs vf o angle k n L ps w d Hn HL Hf Ha Hd)|].
  intros [u w'|w'|] H; cbn [done] in *; try contradiction. rewrite (distance_ext n _ _ _ H), evolve_rounds by exact Hr.
  assert (Hi : INR (Z.to_nat k) = IZR k) by (rewrite INR_IZR_INZ, Z2Nat.id by lia; reflexivity). assert (Hp : (0 < IZR k)%R) by (apply IZR_lt; exact Hk).
  pose proof (rounds_error n o (w_amp w) E (angle / IZR k) (Z.to_nat k) apart Hf Hr HE Hc) as Hb. rewrite Hi in Hb. replace (angle / IZR k * IZR k)%R with angle in Hb by (field; lra).
  eapply Rle_trans; [exact Hb|]. right. field. lra.
Qed.
Lemma weight_zero apart ts : (forall p q, apart p q = false) -> apart_weight apart ts = 0%R.
Proof.
  intros H. induction ts as [|p ts IH]; [reflexivity|]. cbn [apart_weight]. rewrite IH, (Rsuml_ext' _ (fun _ => 0 * 0)%R) by (intros; rewrite H; ring). rewrite Rsuml_scal. ring.
Qed.
Lemma distance_zero n a b : (distance n a b <= 0)%R -> forall x, x < 2 ^ n -> a x = b x.
Proof.
  intros H x Hx. pose proof (vnorm_nonneg n (fun x => a x - b x)%C) as H0. unfold distance in H. pose proof (vnorm_0_eq n (fun x => a x - b x)%C ltac:(lra) x Hx) as Hz. cbv beta in Hz.
  transitivity (a x - b x + b x)%C; [ring|]. rewrite Hz. ring.
Qed.
Theorem rotation_exact vf o angle k n L ps w E d : n < 64 -> lanes_ok L -> op_fits n o -> real_coefs o -> (tiny <= Rabs angle)%R ->
  evolution n o (w_amp w) E -> (forall p q, In p (o_terms o) -> In q (o_terms o) -> commute p q) ->
  add_observable_rotation_gate vf o angle k c_new = Ok d ->
  runs (circuit_update_plain n L ps d) w (done (fun _ w' => forall x, x < 2 ^ n -> w_amp w' x = E angle x)).
Proof.
  intros Hn HL Hf Hr Ha HE Hc Hd. eapply runs_weaken; [apply (rotation_error vf o angle k (fun _ _ => false) n L ps w E d Hn HL Hf Hr Ha HE (fun p q Hp Hq _ => Hc p q Hp Hq) Hd)|].
  intros [u w'|w'|] H; cbn [done] in *; try contradiction. rewrite weight_zero in H by reflexivity. apply distance_zero. lra.
Qed.
Lemma weight_nonneg apart ts : (0 <= apart_weight apart ts)%R.
Proof.
  induction ts as [|p ts IH]; cbn [apart_weight]; [lra|]. apply Rplus_le_le_0_compat; [|exact IH]. apply Rsuml_pos. intros q. destruct (apart p q); [apply Rmult_le_pos; apply Rabs_pos|lra].
Qed.
Theorem rotation_converges vf o angle n psi E eps : n < 64 -> op_fits n o -> real_coefs o -> (tiny <= Rabs angle)%R -> evolution n o psi E -> (0 < eps)%R ->
  exists K, forall k L ps w d, (K <= k)%Z -> lanes_ok L -> w_amp w = psi -> add_observable_rotation_gate vf o angle k c_new = Ok d ->
    runs (circuit_update_plain n L ps d) w (done (fun _ w' => (distance n (w_amp w') (E angle) < eps)%R)).
Proof.
  intros Hn Hf Hr Ha HE He. set (W := apart_weight (fun _ _ => true) (o_terms o)). set (Q := (angle * angle * W * vnorm n psi / 4)%R). exists (up (Q / eps)). intros k L ps w d Hk HL Hw Hd. subst psi.
  pose proof (accepted _ _ _ _ _ _ Hd) as [_ Hk0]. assert (Hp : (0 < IZR k)%R) by (apply IZR_lt; exact Hk0). pose proof (archimed (Q / eps)) as [Hup _]. apply IZR_le in Hk.
  eapply runs_weaken; [apply (rotation_error vf o angle k (fun _ _ => true) n L ps w E d Hn HL Hf Hr Ha HE)|]; [discriminate|exact Hd|].
  intros [u w'|w'|] H; cbn [done] in *; try contradiction. eapply Rle_lt_trans; [exact H|]. fold W. replace (angle * angle / (4 * IZR k) * W * vnorm n (w_amp w))%R with (Q / IZR k)%R by (unfold Q; field; lra).
  apply (Rmult_lt_reg_r (IZR k)); [lra|]. unfold Rdiv at 1. rewrite Rmult_assoc, Rinv_l, Rmult_1_r by lra. assert (Hq : (Q / eps < IZR k)%R) by lra. apply (Rmult_lt_compat_l eps) in Hq; [|exact He]. unfold Rdiv in Hq. replace (eps * (Q * / eps))%R with Q in Hq by (field; lra). exact Hq.
Qed.
(** ** Small angles *)
Lemma ham_norm n L u : Forall (fun ap => pauli_fits n (snd ap)) L -> (vnorm n (ham L u) <= Rsuml (fun ap => Rabs (fst ap)) L * vnorm n u)%R.
Proof.
  intros HL. induction HL as [|ap L Hap HL IH].
  - unfold ham, Csuml, Rsuml. cbn [map fold_right]. rewrite vnorm_zero. lra.
  - rewrite (vnorm_ext n _ (fun x => RtoC (fst ap) * string_act (snd ap) u x + ham L u x)%C) by (intros; apply ham_cons). eapply Rle_trans; [apply (vnorm_add n (fun x => RtoC (fst ap) * string_act (snd ap) u x)%C)|].
    rewrite vnorm_real, string_norm, Rsuml_cons by assumption. lra.
Qed.
Lemma skipped_error n o psi E angle : op_fits n o -> real_coefs o -> evolution n o psi E -> (distance n psi (E angle) <= Rabs angle / 2 * coef_sum o * vnorm n psi)%R.
Proof.
  intros Hf Hr HE. set (A := map (angle_of angle) (o_terms o)). assert (HA : Forall (fun ap => pauli_fits n (snd ap)) A) by (unfold A; unfold op_fits in Hf; clear - Hf; induction Hf; constructor; assumption).
  set (D := fun t x => (psi x - E (angle * t)%R x)%C). set (K := (Rabs angle / 2 * coef_sum o * vnorm n psi)%R).
  assert (HK : (vnorm n (ham A psi) <= K)%R).
  { eapply Rle_trans; [apply ham_norm, HA|]. right. unfold K, coef_sum, A. rewrite Rsuml_map. cbn [angle_of fst]. rewrite (Rsuml_ext' _ (fun p => Rabs angle / 2 * Rabs (fst (p_coef p)))%R) by (intros; unfold angle_of; cbn [fst]; unfold Rdiv; rewrite !Rabs_mult, (Rabs_right (/ 2)) by lra; ring). rewrite Rsuml_scal. ring. }
  assert (HD : forall t x, x < 2 ^ n -> cderivative (fun t => D t x) t (- Ci * ham A (D t) x + Ci * ham A psi x)%C).
  { intros t x Hx. unfold D. eapply cd_eq.
    - apply (cd_ext (fun t => psi x + - C1 * E (angle * t)%R x)%C); [intros; ring|]. apply (cd_add (fun _ => psi x) (fun t => - C1 * E (angle * t)%R x)%C); [apply cd_const|]. apply (cd_cmul _ (fun t => E (angle * t)%R x)). apply (evolution_scaled n o psi E angle Hr HE t x Hx).
    - rewrite ham_rev. fold A. rewrite (ham_ext A (fun x => psi x - E (angle * t)%R x)%C (fun y => C1 * psi y + - C1 * E (angle * t)%R y)%C) by (intros; ring). rewrite ham_lin. ring. }
  assert (Hre : forall t, Re (inner n (D t) (fun x => - Ci * ham A (D t) x + Ci * ham A psi x)%C) = Re (inner n (D t) (fun x => Ci * ham A psi x)%C)).
  { intros t. assert (Ein : inner n (D t) (fun x => - Ci * ham A (D t) x + Ci * ham A psi x)%C = (- Ci * inner n (D t) (ham A (D t)) + inner n (D t) (fun x => Ci * ham A psi x)%C)%C) by (unfold inner; rewrite <- Csum_mul_l, <- Csum_add; apply Csum_ext; intros; ring).
    rewrite Ein, (quad_real n _ (D t) (ham_sa n A HA)). unfold Re, Ci, RtoC. cbn. ring. }
  pose proof (grow_by (fun t => sqnorm n (D t)) (fun t => 2 * Re (inner n (D t) (fun x => - Ci * ham A (D t) x + Ci * ham A psi x)%C))%R (fun t => K * t)%R (fun _ => K)) as Hg. cbv beta in Hg.
  assert (H0 : sqnorm n (D 0%R) = 0%R).
  { fold (vnorm n (D 0%R)). rewrite <- vnorm_sq. rewrite (vnorm_ext n (D 0%R) (fun _ => C0)); [rewrite vnorm_zero; ring|]. intros x Hx. unfold D. rewrite Rmult_0_r. destruct HE as [-> _]; [ring|exact Hx]. }
  rewrite H0, sqrt_0 in Hg. unfold distance. fold K. replace K with (0 + (K * 1 - K * 0))%R by ring.
  rewrite (vnorm_ext n _ (D 1%R)) by (intros; unfold D; now rewrite Rmult_1_r). apply Hg; clear Hg.
  - intros t _. apply (cd_sqnorm n D). intros x Hx. now apply HD.
  - intros t. apply sqnorm_nonneg.
  - intros t _. apply d_scale.
  - intros t _. eapply Rle_trans; [apply (vnorm_nonneg n (ham A psi))|exact HK].
  - intros t _. rewrite Hre. fold (vnorm n (D t)). pose proof (re_inner_le n (D t) (fun x => Ci * ham A psi x)%C) as H1. rewrite vnorm_i in H1. pose proof (Rle_abs (Re (inner n (D t) (fun x => Ci * ham A psi x)%C))). pose proof (vnorm_nonneg n (D t)).
    assert (vnorm n (D t) * vnorm n (ham A psi) <= vnorm n (D t) * K)%R by (apply Rmult_le_compat_l; assumption). lra.
Qed.
(** ** Uniqueness *)
Theorem evolution_unique n o psi E F : op_fits n o -> real_coefs o -> evolution n o psi E -> evolution n o psi F -> forall t x, x < 2 ^ n -> E t x = F t x.
Proof.
  intros Hf Hr HE HF s. apply distance_zero. set (A := map (angle_of s) (o_terms o)). assert (HA : Forall (fun ap => pauli_fits n (snd ap)) A) by (unfold A; unfold op_fits in Hf; clear - Hf; induction Hf; constructor; assumption).
  set (D := fun t x => (E (s * t)%R x - F (s * t)%R x)%C).
  assert (HD : forall t x, x < 2 ^ n -> cderivative (fun t => D t x) t (- Ci * ham A (D t) x)%C).
  { intros t x Hx. unfold D. eapply cd_eq.
    - apply (cd_ext (fun t => E (s * t)%R x + - C1 * F (s * t)%R x)%C); [intros; ring|]. apply (cd_add (fun t => E (s * t)%R x) (fun t => - C1 * F (s * t)%R x)%C); [apply (evolution_scaled n o psi E s Hr HE t x Hx)|]. apply (cd_cmul _ (fun t => F (s * t)%R x)). apply (evolution_scaled n o psi F s Hr HF t x Hx).
    - rewrite !ham_rev. fold A. rewrite (ham_ext A (fun x => E (s * t)%R x - F (s * t)%R x)%C (fun y => C1 * E (s * t)%R y + - C1 * F (s * t)%R y)%C) by (intros; ring). rewrite ham_lin. ring. }
  assert (Hre : forall t, Re (inner n (D t) (fun x => - Ci * ham A (D t) x)%C) = 0%R).
  { intros t. assert (Ein : inner n (D t) (fun x => - Ci * ham A (D t) x)%C = (- Ci * inner n (D t) (ham A (D t)))%C) by (unfold inner; rewrite <- Csum_mul_l; apply Csum_ext; intros; ring). rewrite Ein, (quad_real n _ (D t) (ham_sa n A HA)). unfold Re, Ci, RtoC. cbn. ring. }
  pose proof (grow (fun t => sqnorm n (D t)) (fun t => 2 * Re (inner n (D t) (fun x => - Ci * ham A (D t) x)%C))%R 0) as Hg. cbv beta in Hg.
  assert (H0 : sqnorm n (D 0%R) = 0%R).
  { rewrite <- vnorm_sq. rewrite (vnorm_ext n (D 0%R) (fun _ => C0)); [rewrite vnorm_zero; ring|]. intros x Hx. unfold D. rewrite Rmult_0_r. rewrite (proj1 HE x Hx), (proj1 HF x Hx). ring. }
  rewrite H0, sqrt_0 in Hg. unfold distance. rewrite (vnorm_ext n _ (D 1%R)) by (intros; unfold D; now rewrite Rmult_1_r). replace 0%R with (0 + 0 / 2)%R at 1 by field. apply Hg; clear Hg.
  - lra.
  - intros t _. apply (cd_sqnorm n D). intros x Hx. now apply HD.
  - intros t. apply sqnorm_nonneg.
  - intros t _. rewrite Hre. lra.
Qed.
(** ** Not exact in general *)
Definition xz_exp (t : R) : state := fun x => (RtoC (cos (t / sqrt 2)) * basis 0 x + (- Ci * RtoC (sin (t / sqrt 2) / sqrt 2)) * op_act xz (basis 0) x)%C.
Lemma xz_act u x : op_act xz u x = (string_act (Pauli C1 1 0) u x + string_act (Pauli C1 0 1) u x)%C.
Proof. unfold op_act, terms_act, Csuml, string_act. cbn [xz o_terms map fold_right p_bf p_pf]. ring. Qed.
Lemma xz_square u x : op_act xz (op_act xz u) x = (RtoC 2 * u x)%C.
Proof.
  rewrite xz_act. rewrite (string_ext _ (op_act xz u) (fun y => C1 * string_act (Pauli C1 1 0) u y + C1 * string_act (Pauli C1 0 1) u y)%C), (string_ext (Pauli C1 0 1) (op_act xz u) (fun y => C1 * string_act (Pauli C1 1 0) u y + C1 * string_act (Pauli C1 0 1) u y)%C) by (intros; rewrite xz_act; ring).
  rewrite !string_lin, !string_sq, (strings_swap (Pauli C1 0 1) (Pauli C1 1 0)). change (anticommute (Pauli C1 0 1) (Pauli C1 1 0)) with true. c_eq; cbn; ring.
Qed.
Lemma op_act_comb o (a b : C) u v x : op_act o (fun y => a * u y + b * v y)%C x = (a * op_act o u x + b * op_act o v x)%C.
Proof. unfold op_act, terms_act. induction (o_terms o) as [|p l IH]; unfold Csuml in *; cbn [map fold_right]; [ring|]. rewrite IH, !pauli_act_eq. ring. Qed.
Lemma sqrt2_pos : (0 < sqrt 2)%R. Proof. apply sqrt_lt_R0. lra. Qed.
Lemma xz_evolution : evolution 1 xz (basis 0) xz_exp.
Proof.
  pose proof sqrt2_pos as Hs. pose proof (sqrt_sqrt 2 ltac:(lra)) as Hss. split.
  - intros x _. unfold xz_exp. replace (0 / sqrt 2)%R with 0%R by (field; lra). rewrite cos_0, sin_0. replace (0 / sqrt 2)%R with 0%R by (field; lra). set (A := op_act _ _ _). set (B := basis 0 x). c_eq; cbn; ring.
  - intros t x _. unfold xz_exp at 1. set (B := basis 0 x). set (A := op_act xz (basis 0) x).
    assert (Hd : derivable_pt_lim (fun t => t / sqrt 2)%R t (/ sqrt 2)%R).
    { apply (derivable_pt_lim_ext (fun t => / sqrt 2 * t)%R); [intros; unfold Rdiv; ring|]. apply d_scale. }
    eapply cd_eq; [apply (cd_add (fun t => RtoC (cos (t / sqrt 2)) * B)%C (fun t => - Ci * RtoC (sin (t / sqrt 2) / sqrt 2) * A)%C)|].
    + apply (cd_ext (fun t => B * RtoC (cos (t / sqrt 2)))%C); [intros; ring|]. apply (cd_cmul B (fun t => RtoC (cos (t / sqrt 2)))), cd_real. apply (derivable_pt_lim_comp (fun t => t / sqrt 2)%R cos); [exact Hd|apply derivable_pt_lim_cos].
    + apply (cd_ext (fun t => (- Ci * A * RtoC (/ sqrt 2)) * RtoC (sin (t / sqrt 2)))%C); [intros; c_eq; cbn; unfold Rdiv; ring|]. apply (cd_cmul _ (fun t => RtoC (sin (t / sqrt 2)))), cd_real. apply (derivable_pt_lim_comp (fun t => t / sqrt 2)%R sin); [exact Hd|apply derivable_pt_lim_sin].
    + assert (Eo : op_act xz (xz_exp t) x = (RtoC (cos (t / sqrt 2)) * A + (- Ci * RtoC (sin (t / sqrt 2) / sqrt 2)) * (RtoC 2 * B))%C).
      { unfold xz_exp. rewrite (op_act_comb xz), xz_square. reflexivity. }
      rewrite Eo. set (c := cos _). set (s := sin _). destruct A as [ar ai], B as [br bi]. assert (Hq : (/ sqrt 2 * / sqrt 2 = / 2)%R) by (rewrite <- Rinv_mult, Hss; reflexivity).
      unfold Rdiv. set (q := (/ sqrt 2)%R) in *. clearbody q c s. clear - Hq. assert (H1 : (q * q * (c * ar) = / 2 * (c * ar))%R) by (now rewrite Hq). assert (H2 : (q * q * (c * ai) = / 2 * (c * ai))%R) by (now rewrite Hq).
      c_eq; cbn; lra.
Qed.
